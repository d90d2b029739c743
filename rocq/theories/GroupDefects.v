(* GroupMap: what exactly the calls do that break a map (the cases excluded by the partial
   theorems C48, C50, C51, C55, C56), for every map and every item. *)
From Coq Require Import List NArith Lia Bool Permutation PeanoNat.
From Verif Require Import Closures Prelude RawTable GroupMap ListFacts TableFacts GroupSpec GroupHistory
  IterFacts GroupProofs GroupProofs2 GroupProofs3 GroupProofs4 GroupProofs5 GroupProofs6
  GroupHistoryProofs GroupProps GroupProps2 SoundTables Concrete.
Import ListNotations.
Open Scope N_scope.

Lemma update_nth_id : forall {A} (f : A -> A) l i x, nth_error l i = Some x -> f x = x -> update_nth i f l = l.
Proof.
  induction l as [|a l IH]; intros [|i] x H F; simpl in *; try discriminate.
  - inversion H; subst. rewrite F. auto.
  - f_equal. eapply IH; eauto.
Qed.
Lemma t_modify_id : forall {A} (t : table A) i h e f, nth_error (slots t) i = Some (h, e) -> f e = e ->
  t_modify t i f = t.
Proof.
  intros A t i h e f H F. unfold t_modify. erewrite update_nth_id; eauto.
  - destruct t; auto.
  - simpl. congruence.
Qed.
Lemma map_update_nth : forall {A B} (g : A -> B) (f : A -> A) l i, (forall x, g (f x) = g x) ->
  map g (update_nth i f l) = map g l.
Proof. induction l as [|a l IH]; intros [|i] H; simpl; auto; rewrite ?H, ?IH; auto. Qed.

Lemma update_nth_length : forall {A} (f : A -> A) l i, length (update_nth i f l) = length l.
Proof. induction l as [|a l IH]; intros [|i]; simpl; auto. Qed.

Lemma Permutation_map_same : forall {A B} (f g : A -> B) l, (forall x, In x l -> f x = g x) ->
  Permutation (map f l) (map g l).
Proof. intros A B f g l H. rewrite (map_ext_in f g l H). auto. Qed.
Lemma map_tl : forall {A B} (f : A -> B) l, tl (map f l) = map f (tl l).
Proof. destruct l; auto. Qed.
Lemma NoDup_map_filter : forall {A B} (f : A -> B) p l, NoDup (map f l) -> NoDup (map f (filter p l)).
Proof.
  induction l as [|a l IH]; intros H; auto. cbn [map filter] in *. inversion H; subst.
  destruct (p a); auto. cbn [map]. constructor; auto. intros X. apply H2.
  apply in_map_iff in X as (y & <- & Hy). apply in_map. apply filter_In in Hy. tauto.
Qed.
Lemma find_same : forall {A} (p q : A -> bool) l, (forall x, p x = q x) -> find p l = find q l.
Proof. intros A p q l H. induction l as [|a l IH]; simpl; auto. rewrite H, IH. auto. Qed.
Lemma t_find_modify : forall lo {A} (t : table A) i f h p, (forall x, p (f x) = p x) ->
  t_find lo (t_modify t i f) h p = t_find lo t h p.
Proof.
  intros lo A t i f h p H. unfold t_find, t_modify. cbn [slots lay]. rewrite map_update_nth by auto.
  apply find_same. intros j. generalize (slots t) as l. intros l. revert i j.
  induction l as [|[a b] l IH]; intros [|i] [|j]; simpl; auto.
Qed.

Section Defects.
  Context {L R S : Type} (E : env L R S) (OK : lawful E).
  Notation "a =L b" := (eqL E a b = true) (at level 70).
  Notation "a =R b" := (eqR E a b = true) (at level 70).
  Notation Rep := (Rep E).
  Notation Repr := (Repr E).
  Notation slotL := (slotL E).
  Notation slotR := (slotR E).
  Notation pkey := (pkey E).
  Notation view := GroupProofs.view.
  Notation notl l := (fun p => negb (eqL E l (fst p))).
  Notation zl := (zleft L R).
  Notation zr := (zright R).
  Let EL := eqL_equiv _ OK.
  Let ER := eqR_equiv _ OK.
  Let LO := lo_ok _ OK.

  (* ---- C48: insert of a pair that is there ---- *)
  Definition no_left (s : S) (A : list zl) : table (left_item L) := Tbl (map (slotL s) A) 0.
  Definition dropped (s : S) (z : zl) (y : zr) : zr :=
    ZR (y_id y) (y_r y) (set_remove E (y_id y) (y_tab y) (pkey s z)).

  Lemma reinsert_run : forall s lc rc m z A D y B l r, Rep s lc rc m (z :: A) D (y :: B) ->
    eqL E l (z_l z) = true -> (forall x, In x A -> eqL E l (z_l x) = false) ->
    eqR E r (y_r y) = true -> (forall x, In x B -> eqR E r (y_r x) = false) ->
    z_g z = y_id y -> z_rid z = y_id y ->
    exists k, let m' := set_right (t_modify (right_set m) k (pairs_remove E (pkey s z))) m in
      insert E l r m = Ret m' tt /\
      Rep s lc rc (set_left (no_left s A) m') A D (dropped s z y :: B).
  Proof.
    intros s lc rc m z A D y B l r H Q N QR NR G RZ.
    assert (HB := rep_hb _ _ _ _ _ _ _ _ H).
    assert (HQ : hashL E s l = hashL E s (z_l z)) by (apply (hashL_ok _ OK); auto).
    assert (HR : hashR E s r = hashR E s (y_r y)) by (apply (hashR_ok _ OK); auto).
    assert (ZR : z_r z = y_r y) by (eapply (in_group_r E); [exact H|left; auto|left; auto|auto]).
    destruct (find_key_left E OK _ _ _ _ _ _ _ _ _ H Q N) as (i & FL & AL).
    destruct (find_key_right E OK _ _ _ _ _ _ _ _ _ H QR NR) as (j & FR & AR).
    assert (CT : set_contains E (y_id y) (y_tab y) (pkey s z) = true).
    { rewrite (tab_contains E OK _ _ _ _ _ _ _ y z H) by (simpl; auto).
      unfold in_group. rewrite G. apply N.eqb_refl. }
    assert (INS : pairs_insert E (pkey s z) (snd (slotR s y)) = snd (slotR s y)).
    { unfold pairs_insert, set_pairs, set_insert, hs_insert. cbn [snd GroupProofs.slotR r_id r_pairs r_value].
      unfold set_contains, hs_contains in CT. destruct (t_find _ _ _ _); [reflexivity|discriminate]. }
    destruct (get_mut_unique E OK (right_set m) (hashR E s (y_r y)) (right_with_right_id (y_id y))
      (snd (slotR s y)) (map (slotR s) B)) as (k & FK & AK).
    { apply (rep_r _ _ _ _ _ _ _ _ H). }
    { apply N.eqb_refl. }
    { intros x Hx. eapply (id_r_other E); [|exact Hx].
      assert (ND := rep_rids _ _ _ _ _ _ _ _ H). inversion ND; auto. }
    exists k. cbv zeta. split.
    - unfold insert, left_assign, right_assign. mrun. rewrite HB, FL, FR.
      cbn [snd GroupProofs.slotL GroupProofs.slotR l_id l_hash l_rid r_id].
      rewrite HQ. change (hashL E s (z_l z), z_id z) with (pkey s z).
      rewrite (t_modify_id (right_set m) j _ _ _ (proj1 AR) INS).
      assert (SR : set_right (right_set m) m = m) by (destruct m; auto). rewrite SR.
      rewrite RZ, ZR, FK. cbn [fst snd set_right set_left left_set right_set].
      rewrite (t_modify_id (left_set m) i _ _ _ (proj1 AL)).
      2:{ unfold set_l_hash. cbn [snd GroupProofs.slotL]. rewrite HR, ZR. reflexivity. }
      rewrite (t_modify_id (left_set m) i _ _ _ (proj1 AL)).
      2:{ unfold set_l_rid. cbn [snd GroupProofs.slotL]. rewrite RZ. reflexivity. }
      reflexivity.
    - assert (C0 := rep_core E _ _ _ _ _ _ _ H).
      assert (C1 := core_kill E s lc rc [z] A D (y :: B) C0).
      apply modify_at with (f := pairs_remove E (pkey s z)) in AK.
      apply core_rep.
      + eapply core_forget; eauto. eapply tab_without; eauto.
      + exact HB.
      + reflexivity.
      + cbn [right_set set_left set_right]. apply AK.
  Qed.

  (* iter only looks up left items by the keys in the sets *)
  Definition iter_keys (it : @iter_t R) : list (N * N) :=
    match left_iter it with Some ps => ps | None => [] end ++
    flat_map (fun x => hs_elems (r_pairs (snd x))) (right_iter it).
  Lemma iter_next_ext : forall (m1 m2 : gmap L R S) it, right_set m1 = right_set m2 ->
    (forall p, In p (iter_keys it) -> t_get (lo E) (left_set m1) (fst p) (left_with_left_id (snd p))
                             = t_get (lo E) (left_set m2) (fst p) (left_with_left_id (snd p))) ->
    iter_next E m1 it = iter_next E m2 it.
  Proof.
    intros m1 m2 [rit lit] RS H. unfold iter_next, iter_keys in *. cbn [left_iter right_iter] in *.
    assert (X : (forall p, In p (flat_map (fun x => hs_elems (r_pairs (snd x))) rit) ->
               t_get (lo E) (left_set m1) (fst p) (left_with_left_id (snd p))
             = t_get (lo E) (left_set m2) (fst p) (left_with_left_id (snd p))) ->
             forall l, iter_next_right E m1 l rit = iter_next_right E m2 l rit).
    { clear H. intros H l. unfold iter_next_right. destruct rit as [|[h r] rit]; auto.
      destruct (hs_elems (r_pairs r)) as [|[a b] ps] eqn:Q; auto.
      assert (Z := H (a, b)). cbn [fst snd] in Z. rewrite Z; auto. cbn [flat_map snd]. rewrite Q. left; auto. }
    destruct lit as [[|[h i] ps]|]; try (apply X; intros p Hp; apply H; auto; fail).
    assert (Z := H (h, i)). cbn [fst snd] in Z. rewrite Z by (left; auto). rewrite RS. auto.
  Qed.
  Lemma iter_next_keys : forall (m : gmap L R S) it a it', iter_next E m it = Done (a, it') ->
    incl (iter_keys it') (iter_keys it).
  Proof.
    intros m [rit lit] a it'. unfold iter_next. cbn [left_iter right_iter].
    assert (X : forall l, iter_next_right E m l rit = Done (a, it') -> l = None \/ l = Some [] ->
      incl (iter_keys it') (iter_keys (Iter rit l))).
    { intros l Q LN. unfold iter_next_right in Q. destruct rit as [|[h r] rit].
      - inversion Q; subst. apply incl_refl.
      - destruct (hs_elems (r_pairs r)) as [|[x y] ps] eqn:W; inversion Q; subst; clear Q;
          unfold iter_keys; cbn [left_iter right_iter flat_map snd]; rewrite W.
        + destruct LN as [-> | ->]; apply incl_refl.
        + intros p Hp. apply in_app_iff. right. right. auto. }
    destruct lit as [[|[h i] ps]|]; auto.
    destruct (t_get (lo E) (left_set m) h (left_with_left_id i)) as [x|]; [|discriminate].
    destruct (t_get (lo E) (right_set m) (l_hash x) (right_with_right_id (l_rid x))); [|discriminate].
    intros Q; inversion Q; subst. unfold iter_keys. cbn [left_iter right_iter]. intros p Hp.
    right. auto.
  Qed.
  Lemma iter_collect_ext : forall (m1 m2 : gmap L R S), right_set m1 = right_set m2 -> forall fuel it,
    (forall p, In p (iter_keys it) -> t_get (lo E) (left_set m1) (fst p) (left_with_left_id (snd p))
                             = t_get (lo E) (left_set m2) (fst p) (left_with_left_id (snd p))) ->
    collect (iter_next E m1) fuel it = collect (iter_next E m2) fuel it.
  Proof.
    intros m1 m2 RS. induction fuel as [|fuel IH]; intros it H; cbn [collect];
      rewrite (iter_next_ext m1 m2 it RS H); auto.
    destruct (iter_next E m2 it) as [[[a|] it']|] eqn:Q; auto. f_equal. apply IH.
    intros p Hp. apply H. eapply iter_next_keys; eauto.
  Qed.

  Lemma paired_collect_ext : forall (m1 m2 : gmap L R S) it,
    (forall x, In x it -> option_map r_value (t_get (lo E) (right_set m1) (l_hash (snd x)) (right_with_right_id (l_rid (snd x))))
                        = option_map r_value (t_get (lo E) (right_set m2) (l_hash (snd x)) (right_with_right_id (l_rid (snd x))))) ->
    paired_rest E m1 it = paired_rest E m2 it.
  Proof.
    intros m1 m2 it. unfold paired_rest. induction it as [|[h x] it IH]; intros H; auto.
    cbn [length collect paired_next]. assert (Q := H (h, x) (or_introl eq_refl)). cbn [snd] in Q.
    destruct (t_get (lo E) (right_set m1) (l_hash x) (right_with_right_id (l_rid x))),
             (t_get (lo E) (right_set m2) (l_hash x) (right_with_right_id (l_rid x))); try discriminate; auto.
    inversion Q as [Q1]. rewrite Q1. f_equal. apply IH. intros y Hy. apply H. right; auto.
  Qed.

  Lemma right_rest_modify : forall (t : table (right_item R)) k f, (forall x, r_value (f x) = r_value x) ->
    right_rest (slots (t_modify t k f)) = right_rest (slots t).
  Proof.
    intros t k f F.
    assert (G : forall it : list (N * right_item R), right_rest it = Done (map (fun x => r_value (snd x)) it)).
    { induction it as [|[h x] it IH]; auto. unfold right_rest in *. cbn [length collect right_next map snd].
      rewrite IH. auto. }
    rewrite !G. unfold t_modify. cbn [slots]. rewrite map_update_nth; auto. intros x. cbn [snd]. auto.
  Qed.

  (* ---- a map with one orphan: z is in the left table, but in the set of no right item ----
     m0: the same map without z in the left table; m1: the same map with z in the set of y *)
  Definition joined (s : S) (z : zl) (y : zr) : zr :=
    ZR (y_id y) (y_r y) (set_insert E (y_id y) (y_tab y) (pkey s z)).
  Definition without (s : S) (A : list zl) (m : gmap L R S) := set_left (no_left s A) m.
  Definition with_z (s : S) (z : zl) (y : zr) (B : list zr) (m : gmap L R S) :=
    set_right (Tbl (map (slotR s) (joined s z y :: B)) 0) m.
  Record orphan (s : S) (lc rc : N) (m : gmap L R S) (z : zl) (A : list zl) (y : zr) (B : list zr) : Prop := {
    o_0 : Rep s lc rc (without s A m) A [] (y :: B);
    o_1 : Rep s lc rc (with_z s z y B m) (z :: A) [] (joined s z y :: B);
    o_g : z_g z = y_id y;
    o_rid : z_rid z = y_id y;
    o_rids : ridsZ A;
    o_lc : left_counter m = lc;
    o_rc : right_counter m = rc
  }.

  Lemma orphan_of : forall s lc rc m z A y B, Rep s lc rc (without s A m) A [] (y :: B) ->
    Permutation (slots (left_set m)) (map (slotL s) (z :: A)) ->
    z_g z = y_id y -> z_rid z = y_id y -> z_r z = y_r y -> ridsZ A ->
    ~ In (z_id z) (map z_id A) -> z_id z < lc -> (forall x, In x A -> eqL E (z_l z) (z_l x) = false) ->
    left_counter m = lc -> right_counter m = rc -> orphan s lc rc m z A y B.
  Proof.
    intros s lc rc m z A y B H0 PL G RZ ZR RI F LT DH CL CR. constructor; auto.
    assert (C := rep_core E _ _ _ _ _ _ _ H0).
    apply core_rep.
    - apply (core_join E OK); auto.
      + rewrite app_nil_r. auto.
      + rewrite RZ. apply (c_rlt _ _ _ _ _ _ _ C y). left; auto.
    - apply (rep_hb _ _ _ _ _ _ _ _ H0).
    - exact PL.
    - reflexivity.
  Qed.

  Lemma orphan_facts : forall s lc rc m z A y B, orphan s lc rc m z A y B ->
    z_r z = y_r y /\ ~ In (z_id z) (map z_id A) /\ z_id z < lc /\
    (forall x, In x A -> eqL E (z_l z) (z_l x) = false).
  Proof.
    intros s lc rc m z A y B O. assert (C := rep_core E _ _ _ _ _ _ _ (o_1 _ _ _ _ _ _ _ _ O)).
    split; [|split; [|split]].
    - destruct (c_link _ _ _ _ _ _ _ C z (or_introl eq_refl)) as (y' & Hy & I & <-).
      destruct Hy as [<-|Hy]; auto. exfalso.
      assert (ND := c_rids _ _ _ _ _ _ _ C). simpl in ND. inversion ND; subst. apply H1.
      rewrite <- (o_g _ _ _ _ _ _ _ _ O), <- I. apply in_map; auto.
    - assert (ND := c_lids _ _ _ _ _ _ _ C). rewrite app_nil_r in ND. simpl in ND. inversion ND; auto.
    - apply (c_llt _ _ _ _ _ _ _ C z). left; auto.
    - apply (distinct_head E z_l). apply (c_eql _ _ _ _ _ _ _ C).
  Qed.

  (* no set holds z *)
  Lemma orphan_nowhere : forall s lc rc m z A y B y', orphan s lc rc m z A y B -> In y' (y :: B) ->
    ~ In (pkey s z) (map snd (slots (y_tab y'))).
  Proof.
    intros s lc rc m z A y B y' O Hy. destruct (orphan_facts _ _ _ _ _ _ _ _ O) as (_ & F & _).
    eapply (tab_contains_fresh E); [apply (o_0 _ _ _ _ _ _ _ _ O)|exact Hy|].
    rewrite app_nil_r. exact F.
  Qed.
  Lemma orphan_contains : forall s lc rc m z A y B y', orphan s lc rc m z A y B -> In y' (y :: B) ->
    set_contains E (y_id y') (y_tab y') (pkey s z) = false.
  Proof.
    intros s lc rc m z A y B y' O Hy. apply (set_contains_false E OK).
    - eapply (rep_hashed_tab E); [apply (o_0 _ _ _ _ _ _ _ _ O)|auto].
    - eapply orphan_nowhere; eauto.
  Qed.

  (* right ids lead to the same right values *)
  Lemma orphan_value : forall s lc rc m z A y B x, orphan s lc rc m z A y B -> In x (z :: A) ->
    option_map r_value (t_get (lo E) (right_set m) (hashR E s (z_r x)) (right_with_right_id (z_rid x)))
      = Some (z_r x).
  Proof.
    intros s lc rc m z A y B x O [<-|Hx].
    - destruct (orphan_facts _ _ _ _ _ _ _ _ O) as (ZR & _).
      rewrite (o_rid _ _ _ _ _ _ _ _ O), ZR.
      assert (Q := get_right_id E OK _ _ _ _ _ _ _ y (o_0 _ _ _ _ _ _ _ _ O) (or_introl eq_refl)).
      cbn [right_set without set_left] in Q. rewrite Q. reflexivity.
    - destruct (rid_right E OK _ _ _ _ _ _ _ x (o_0 _ _ _ _ _ _ _ _ O) (o_rids _ _ _ _ _ _ _ _ O) Hx)
        as (y' & Q & QR).
      cbn [right_set without set_left] in Q. rewrite Q. simpl. congruence.
  Qed.

  Lemma orphan_repr1 : forall s lc rc m z A y B, orphan s lc rc m z A y B ->
    Repr (true, true) s lc rc (with_z s z y B m) (view (z :: A) (y :: B)).
  Proof.
    intros s lc rc m z A y B O. exists (z :: A), [], (joined s z y :: B).
    split; [apply (o_1 _ _ _ _ _ _ _ _ O)|]. split; [reflexivity|]. split.
    - split; auto. intros _ x [<-|Hx].
      + rewrite (o_rid _ _ _ _ _ _ _ _ O), (o_g _ _ _ _ _ _ _ _ O). auto.
      + apply (o_rids _ _ _ _ _ _ _ _ O). auto.
    - split; [apply (o_lc _ _ _ _ _ _ _ _ O)|apply (o_rc _ _ _ _ _ _ _ _ O)].
  Qed.
  Lemma orphan_repr0 : forall s lc rc m z A y B, orphan s lc rc m z A y B ->
    Repr (true, true) s lc rc (without s A m) (view A (y :: B)).
  Proof.
    intros s lc rc m z A y B O. exists A, [], (y :: B).
    split; [apply (o_0 _ _ _ _ _ _ _ _ O)|]. split; [reflexivity|]. split.
    - split; auto. intros _. apply (o_rids _ _ _ _ _ _ _ _ O).
    - split; [apply (o_lc _ _ _ _ _ _ _ _ O)|apply (o_rc _ _ _ _ _ _ _ _ O)].
  Qed.

  Lemma orphan_get_right : forall s lc rc m z A y B q, orphan s lc rc m z A y B ->
    get_right E m q = get_right E (with_z s z y B m) q.
  Proof.
    intros s lc rc m z A y B q O. set (m1 := with_z s z y B m).
    assert (H1 := o_1 _ _ _ _ _ _ _ _ O). fold m1 in H1.
    assert (R1 := orphan_repr1 _ _ _ _ _ _ _ _ O). fold m1 in R1.
    unfold get_right, get_right_q. change (t_get (lo E) (left_set m) (hashL E (hash_builder m) q) (equivalent_key_left (eqL E) q))
      with (find_left E m1 q).
    change (t_get (lo E) (left_set m1) (hashL E (hash_builder m1) q) (equivalent_key_left (eqL E) q))
      with (find_left E m1 q).
    destruct (split_l E OK _ _ _ _ _ _ _ q H1) as [(x & A' & P & H2 & Q & HQ & N)|N].
    - rewrite (find_left_some E OK _ _ _ _ _ _ _ _ _ H2 Q N). cbn [snd GroupProofs.slotL l_hash l_rid].
      assert (Hx : In x (z :: A)) by (eapply Permutation_in; [symmetry; exact P|left; auto]).
      rewrite (orphan_value _ _ _ _ _ _ _ _ x O Hx).
      destruct (rid_right E OK _ _ _ _ _ _ _ x H1) as (y' & -> & QR); auto.
      + destruct R1 as (A1 & D1 & B1 & HR & V & T & _). intros w [<-|Hw].
        * rewrite (o_rid _ _ _ _ _ _ _ _ O), (o_g _ _ _ _ _ _ _ _ O). auto.
        * apply (o_rids _ _ _ _ _ _ _ _ O). auto.
      + simpl. congruence.
    - rewrite (find_left_none E OK _ _ _ _ _ _ _ _ H1 N). auto.
  Qed.

  Lemma orphan_find_left : forall s lc rc m z A y B q, orphan s lc rc m z A y B ->
    eqL E q (z_l z) = false -> find_left E m q = find_left E (without s A m) q.
  Proof.
    intros s lc rc m z A y B q O X.
    change (find_left E m q) with (find_left E (with_z s z y B m) q).
    destruct (split_l E OK _ _ _ _ _ _ _ q (o_0 _ _ _ _ _ _ _ _ O)) as [(x & A' & P & H2 & Q & HQ & N)|N].
    - rewrite (find_left_some E OK _ _ _ _ _ _ _ _ _ H2 Q N).
      assert (P1 : Permutation (z :: A) (x :: z :: A')) by (rewrite P; apply perm_swap).
      assert (H1 := rep_perm E OK _ _ _ _ _ _ _ _ _ P1 (Permutation_refl _) (o_1 _ _ _ _ _ _ _ _ O)).
      apply (find_left_some E OK _ _ _ _ _ _ _ _ _ H1 Q). intros w [<-|Hw]; auto.
    - rewrite (find_left_none E OK _ _ _ _ _ _ _ _ (o_0 _ _ _ _ _ _ _ _ O) N).
      apply (find_left_none E OK _ _ _ _ _ _ _ _ (o_1 _ _ _ _ _ _ _ _ O)). intros w [<-|Hw]; auto.
  Qed.

  Lemma orphan_are_paired : forall s lc rc m z A y B a b, orphan s lc rc m z A y B ->
    are_paired E m a b = are_paired E (with_z s z y B m) a b && negb (eqL E a (z_l z)).
  Proof.
    intros s lc rc m z A y B a b O. destruct (eqL E a (z_l z)) eqn:X.
    - rewrite andb_false_r. unfold are_paired.
      change (find_left E m a) with (find_left E (with_z s z y B m) a).
      destruct (orphan_facts _ _ _ _ _ _ _ _ O) as (_ & _ & _ & DH).
      rewrite (find_left_some E OK _ _ _ _ _ _ _ _ _ (o_1 _ _ _ _ _ _ _ _ O) X).
      2:{ intros x Hx. rewrite (eqb_replace_l _ EL _ _ _ X). auto. }
      change (find_right E m b) with (find_right E (without s A m) b).
      destruct (split_r E OK _ _ _ _ _ _ _ b (o_0 _ _ _ _ _ _ _ _ O)) as [(y' & B' & P & H2 & Q & HQ & N)|N].
      + rewrite (find_right_some E OK _ _ _ _ _ _ _ _ _ H2 Q N).
        cbn [snd GroupProofs.slotL GroupProofs.slotR l_hash l_id r_id r_pairs].
        assert (HX : hashL E (hash_builder m) a = hashL E s (z_l z)).
        { assert (HB := rep_hb _ _ _ _ _ _ _ _ (o_0 _ _ _ _ _ _ _ _ O)). cbn in HB. rewrite HB.
          apply (hashL_ok _ OK); auto. }
        rewrite HX. change (hashL E s (z_l z), z_id z) with (pkey s z).
        rewrite (orphan_contains _ _ _ _ _ _ _ _ y' O); [apply andb_false_r|].
        eapply Permutation_in; [symmetry; exact P|left; auto].
      + rewrite (find_right_none E OK _ _ _ _ _ _ _ _ (o_0 _ _ _ _ _ _ _ _ O) N). auto.
    - rewrite andb_true_r.
      rewrite (are_paired_ok E OK _ _ _ _ _ _ a b (orphan_repr1 _ _ _ _ _ _ _ _ O)).
      transitivity (are_paired E (without s A m) a b).
      + unfold are_paired. rewrite (orphan_find_left _ _ _ _ _ _ _ _ a O X). reflexivity.
      + rewrite (are_paired_ok E OK _ _ _ _ _ _ a b (orphan_repr0 _ _ _ _ _ _ _ _ O)).
        unfold s_are_paired, view. simpl. unfold is_l at 2. simpl. rewrite X. reflexivity.
  Qed.

  Lemma orphan_keys : forall s lc rc m z A y B x, orphan s lc rc m z A y B -> In x A ->
    t_get (lo E) (left_set m) (fst (pkey s x)) (left_with_left_id (snd (pkey s x)))
      = t_get (lo E) (left_set (without s A m)) (fst (pkey s x)) (left_with_left_id (snd (pkey s x))).
  Proof.
    intros s lc rc m z A y B x O Hx. unfold GroupProofs.pkey. cbn [fst snd].
    rewrite (get_left_id E OK _ _ _ _ _ _ _ x (o_0 _ _ _ _ _ _ _ _ O) Hx).
    apply (get_left_id E OK _ _ _ _ _ _ _ x (o_1 _ _ _ _ _ _ _ _ O)). right; auto.
  Qed.
  Lemma orphan_pair_rest : forall s lc rc m z A y B b it, orphan s lc rc m z A y B ->
    get_left_iter E m b = Some it -> pair_rest E m it = pair_rest E (without s A m) it.
  Proof.
    intros s lc rc m z A y B b it O GI.
    change (get_left_iter E m b) with (get_left_iter E (without s A m) b) in GI.
    assert (H0 := o_0 _ _ _ _ _ _ _ _ O).
    destruct (split_r E OK _ _ _ _ _ _ _ b H0) as [(y' & B' & P & H2 & Q & HQ & N)|N].
    - destruct (get_left_iter_z E OK _ _ _ _ _ _ _ _ _ H2 Q N) as (zs & GI' & PZ).
      { intros w []. }
      rewrite GI' in GI. inversion GI; subst it.
      assert (IN : incl zs A).
      { intros w Hw. eapply Permutation_in in Hw; [|exact PZ]. apply filter_In in Hw. tauto. }
      rewrite (pair_rest_ok E OK _ _ _ _ _ _ _ zs H0 IN).
      apply (pair_rest_ok E OK _ _ _ _ _ _ _ zs (o_1 _ _ _ _ _ _ _ _ O)). apply incl_tl. auto.
    - unfold get_left_iter, get_left_iter_q in GI. fold (find_right E (without s A m) b) in GI.
      rewrite (find_right_none E OK _ _ _ _ _ _ _ _ H0 N) in GI. discriminate.
  Qed.
  Lemma orphan_iter : forall s lc rc m z A y B, orphan s lc rc m z A y B ->
    iter_rest E m (iter m) = iter_rest E (without s A m) (iter (without s A m)).
  Proof.
    intros s lc rc m z A y B O. unfold iter_rest.
    change (iter (without s A m)) with (iter m). apply iter_collect_ext; auto.
    intros p Hp. unfold iter_keys, iter in Hp. cbn [left_iter right_iter app] in Hp.
    apply in_flat_map in Hp as (x & Hx & Hp).
    assert (H0 := o_0 _ _ _ _ _ _ _ _ O).
    eapply Permutation_in in Hx; [|apply (rep_r _ _ _ _ _ _ _ _ H0)].
    apply in_map_iff in Hx as (y' & <- & Hy). cbn [snd GroupProofs.slotR r_pairs] in Hp.
    destruct (tab_elems E _ _ _ _ _ _ _ y' H0 Hy) as (zs & Q & P). rewrite Q in Hp.
    apply in_map_iff in Hp as (w & <- & Hw). eapply orphan_keys; [exact O|].
    eapply Permutation_in in Hw; [|exact P]. apply filter_In in Hw as [Hw _].
    rewrite app_nil_r in Hw. auto.
  Qed.

  (* the right item holding z cannot be found *)
  Lemma orphan_lost : forall s lc rc m z A y B h, orphan s lc rc m z A y B ->
    t_get_mut E (right_set m) h (right_with_left_pair E (pkey s z)) = None.
  Proof.
    intros s lc rc m z A y B h O. apply (get_mut_absent E). intros x Hx.
    eapply Permutation_in in Hx; [|apply (rep_r _ _ _ _ _ _ _ _ (o_0 _ _ _ _ _ _ _ _ O))].
    apply in_map_iff in Hx as (y' & <- & Hy). exact (orphan_contains _ _ _ _ _ _ _ _ y' O Hy).
  Qed.
  Lemma orphan_remove_left : forall s lc rc m z A y B l, orphan s lc rc m z A y B ->
    eqL E l (z_l z) = true -> exists m', remove_left E l m = Panic m'.
  Proof.
    intros s lc rc m z A y B l O Q.
    assert (H1 := o_1 _ _ _ _ _ _ _ _ O). assert (HB := rep_hb _ _ _ _ _ _ _ _ H1). cbn in HB.
    assert (HQ : hashL E s l = hashL E s (z_l z)) by (apply (hashL_ok _ OK); auto).
    destruct (orphan_facts _ _ _ _ _ _ _ _ O) as (_ & _ & _ & DH).
    unfold remove_left, left_remove_entry. mrun. rewrite HB, HQ.
    destruct (t_remove_entry_unique _ LO (left_set m) (hashL E s (z_l z))
      (equivalent_key_left (eqL E) l) (snd (slotL s z)) (map (slotL s) A)) as (lt & -> & PL).
    { apply (rep_l _ _ _ _ _ _ _ _ H1). }
    { apply (equiv_sym _ EL), Q. }
    { intros x Hx. eapply (key_l_other E OK); [|exact Hx]. intros w Hw.
      rewrite (eqb_replace_l _ EL _ _ _ Q). auto. }
    cbn [l_id l_hash l_value snd GroupProofs.slotL right_set set_left].
    change (hashL E s (z_l z), z_id z) with (pkey s z).
    rewrite (orphan_lost _ _ _ _ _ _ _ _ _ O). eauto.
  Qed.
  Lemma orphan_insert_new : forall s lc rc m z A y B l b, orphan s lc rc m z A y B ->
    eqL E l (z_l z) = true -> (forall x, In x (y :: B) -> eqR E b (y_r x) = false) ->
    exists m', insert E l b m = Panic m'.
  Proof.
    intros s lc rc m z A y B l b O Q NB.
    assert (H1 := o_1 _ _ _ _ _ _ _ _ O). assert (HB := rep_hb _ _ _ _ _ _ _ _ H1). cbn in HB.
    assert (HQ : hashL E s l = hashL E s (z_l z)) by (apply (hashL_ok _ OK); auto).
    destruct (orphan_facts _ _ _ _ _ _ _ _ O) as (_ & _ & _ & DH).
    destruct (find_key_left E OK _ _ _ _ _ _ _ _ l H1 Q) as (i & FL & AL).
    { intros w Hw. rewrite (eqb_replace_l _ EL _ _ _ Q). auto. }
    assert (FR := find_key_right_none E OK _ _ _ _ _ _ _ b (o_0 _ _ _ _ _ _ _ _ O) NB).
    unfold insert. mrun. rewrite HB. cbn [left_set right_set with_z without set_left set_right] in FL, FR.
    rewrite FL, FR. cbn [l_id l_hash l_value snd GroupProofs.slotL]. rewrite HQ.
    change (hashL E s (z_l z), z_id z) with (pkey s z).
    rewrite (orphan_lost _ _ _ _ _ _ _ _ _ O). eauto.
  Qed.

  (* pairing the orphan with a right item that is there *)
  Lemma orphan_join : forall s lc rc m z A y B l b yb Bb lt rt i k, orphan s lc rc m z A y B ->
    eqL E l (z_l z) = true -> Permutation (y :: B) (yb :: Bb) -> eqR E b (y_r yb) = true ->
    at_slot lt i (hashL E s (z_l z)) (LI (z_l z) (hashR E s b) (y_id yb) (z_id z)) (map (slotL s) A) ->
    at_slot rt k (hashR E s (y_r yb)) (pairs_insert E (pkey s z) (snd (slotR s yb))) (map (slotR s) Bb) ->
    Repr (true, true) s lc rc (GM s lc rc lt rt)
      (GC (map y_r (y :: B)) ((z_l z, y_r yb) :: map z_pair A)).
  Proof.
    intros s lc rc m z A y B l b yb Bb lt rt i k O Q P QB AL AR.
    destruct (orphan_facts _ _ _ _ _ _ _ _ O) as (_ & F & LT & DH).
    set (z' := ZL (z_id z) (z_l z) (y_id yb) (y_r yb) (y_id yb)).
    assert (H0 := rep_perm E OK _ _ _ _ _ _ _ _ _ (Permutation_refl _) P (o_0 _ _ _ _ _ _ _ _ O)).
    assert (C := rep_core E _ _ _ _ _ _ _ H0).
    assert (HR : hashR E s b = hashR E s (y_r yb)) by (apply (hashR_ok _ OK); auto).
    apply (repr_same E OK) with (G := view (z' :: A) (joined s z' yb :: Bb)).
    - split; simpl; auto. symmetry. exact (Permutation_map y_r P).
    - exists (z' :: A), [], (joined s z' yb :: Bb). split; [|split; [auto|split; [|auto]]].
      + apply core_rep; auto.
        * apply (core_join E OK); simpl; auto.
          { rewrite app_nil_r. auto. }
          { apply (c_rlt _ _ _ _ _ _ _ C yb). left; auto. }
        * simpl. rewrite (proj2 AL), HR. reflexivity.
        * simpl. rewrite (proj2 AR). reflexivity.
      + split; auto. intros _ x [<-|Hx]; auto. apply (o_rids _ _ _ _ _ _ _ _ O). auto.
  Qed.
  Lemma orphan_pair : forall s lc rc m z A y B l b yb Bb, orphan s lc rc m z A y B ->
    eqL E l (z_l z) = true -> Permutation (y :: B) (yb :: Bb) -> eqR E b (y_r yb) = true ->
    (forall x, In x Bb -> eqR E b (y_r x) = false) ->
    exists m', pair E l b m = Ret m' true /\
      Repr (true, true) s lc rc m' (GC (map y_r (y :: B)) ((z_l z, y_r yb) :: map z_pair A)).
  Proof.
    intros s lc rc m z A y B l b yb Bb O Q P QB NB.
    assert (H1 := o_1 _ _ _ _ _ _ _ _ O). assert (HB := rep_hb _ _ _ _ _ _ _ _ H1). cbn in HB.
    assert (H0 := o_0 _ _ _ _ _ _ _ _ O).
    assert (H2 := rep_perm E OK _ _ _ _ _ _ _ _ _ (Permutation_refl _) P H0).
    assert (HQ : hashL E s l = hashL E s (z_l z)) by (apply (hashL_ok _ OK); auto).
    destruct (orphan_facts _ _ _ _ _ _ _ _ O) as (ZY & _ & _ & DH).
    destruct (find_key_left E OK _ _ _ _ _ _ _ _ l H1 Q) as (i & FL & AL).
    { intros w Hw. rewrite (eqb_replace_l _ EL _ _ _ Q). auto. }
    assert (FR := find_right_some E OK _ _ _ _ _ _ _ _ _ H2 QB NB).
    change (find_right E (without s A m) b) with (find_right E m b) in FR.
    destruct (get_mut_unique E OK (right_set m) (hashR E s (y_r y)) (right_with_right_id (y_id y))
      (snd (slotR s y)) (map (slotR s) B)) as (k & FK & AK).
    { apply (rep_r _ _ _ _ _ _ _ _ H0). }
    { apply N.eqb_refl. }
    { intros x Hx. eapply (id_r_other E); [|exact Hx].
      assert (ND := rep_rids _ _ _ _ _ _ _ _ H0). inversion ND; auto. }
    destruct (find_key_right E OK _ _ _ _ _ _ _ _ _ H2 QB NB) as (j & FJ & AJ).
    assert (ID : t_modify (right_set m) k (pairs_remove E (pkey s z)) = right_set m).
    { apply (t_modify_id _ _ _ _ _ (proj1 AK)). unfold pairs_remove, set_pairs.
      cbn [snd GroupProofs.slotR r_id r_pairs r_value].
      rewrite (set_remove_absent E); auto. eapply orphan_nowhere; [exact O|left; auto]. }
    cbn [left_set right_set with_z without set_left set_right] in FL, AL, FJ, AJ.
    apply modify_at with (f := set_l_hash (hashR E s b)) in AL.
    apply modify_at with (f := set_l_rid (y_id yb)) in AL.
    apply modify_at with (f := pairs_insert E (pkey s z)) in AJ.
    unfold pair, left_assign, right_assign. mrun. rewrite HB, FL, FR.
    cbn [l_id l_hash l_rid l_value r_id snd GroupProofs.slotL GroupProofs.slotR right_set left_set set_left set_right].
    rewrite HQ, ZY, (o_rid _ _ _ _ _ _ _ _ O), FK. cbn [fst].
    change (hashL E s (z_l z), z_id z) with (pkey s z).
    cbn [right_set left_set set_left set_right]. rewrite ID, FJ. cbn [fst].
    eexists. split; [reflexivity|].
    cbn [right_set left_set set_left set_right hash_builder left_counter right_counter].
    unfold set_left, set_right; cbn; rewrite ?HB, (o_lc _ _ _ _ _ _ _ _ O), (o_rc _ _ _ _ _ _ _ _ O).
    eapply orphan_join; eauto.
  Qed.
  Lemma orphan_insert_other : forall s lc rc m z A y B l b yb Bb, orphan s lc rc m z A y B ->
    eqL E l (z_l z) = true -> Permutation (y :: B) (yb :: Bb) -> eqR E b (y_r yb) = true ->
    (forall x, In x Bb -> eqR E b (y_r x) = false) -> eqR E b (y_r y) = false ->
    exists m', insert E l b m = Ret m' tt /\
      Repr (true, true) s lc rc m' (GC (map y_r (y :: B)) ((z_l z, y_r yb) :: map z_pair A)).
  Proof.
    intros s lc rc m z A y B l b yb Bb O Q P QB NB NY.
    assert (H1 := o_1 _ _ _ _ _ _ _ _ O). assert (HB := rep_hb _ _ _ _ _ _ _ _ H1). cbn in HB.
    assert (H0 := o_0 _ _ _ _ _ _ _ _ O).
    assert (H2 := rep_perm E OK _ _ _ _ _ _ _ _ _ (Permutation_refl _) P H0).
    assert (HQ : hashL E s l = hashL E s (z_l z)) by (apply (hashL_ok _ OK); auto).
    destruct (orphan_facts _ _ _ _ _ _ _ _ O) as (ZY & _ & _ & DH).
    destruct (find_key_left E OK _ _ _ _ _ _ _ _ l H1 Q) as (i & FL & AL).
    { intros w Hw. rewrite (eqb_replace_l _ EL _ _ _ Q). auto. }
    destruct (find_key_right E OK _ _ _ _ _ _ _ _ _ H2 QB NB) as (j & FJ & AJ).
    assert (IY : In y (yb :: Bb)) by (eapply Permutation_in; [exact P|left; auto]).
    destruct IY as [->|IY]; [rewrite QB in NY; discriminate|].
    apply perm_in_cons in IY as [B2 PB2].
    cbn [left_set right_set with_z without set_left set_right] in FL, AL, FJ, AJ.
    apply modify_at with (f := pairs_insert E (pkey s z)) in AJ.
    set (rt := t_modify (right_set m) j (pairs_insert E (pkey s z))) in *.
    destruct (get_mut_unique E OK rt (hashR E s (y_r y)) (right_with_right_id (y_id y))
      (snd (slotR s y)) ((hashR E s (y_r yb), pairs_insert E (pkey s z) (snd (slotR s yb))) :: map (slotR s) B2))
      as (k & FK & AK).
    { rewrite (proj2 AJ), (Permutation_map (slotR s) PB2). apply perm_swap. }
    { apply N.eqb_refl. }
    { assert (ND := rep_rids _ _ _ _ _ _ _ _ H2).
      rewrite PB2 in ND. simpl in ND. inversion ND as [|? ? N1 N2]; subst. inversion N2 as [|? ? N3 N4]; subst.
      intros x [<-|Hx].
      - apply N.eqb_neq. simpl. intro Z. apply N1. left; auto.
      - eapply (id_r_other E); [|exact Hx]. auto. }
    assert (ID : t_modify rt k (pairs_remove E (pkey s z)) = rt).
    { apply (t_modify_id _ _ _ _ _ (proj1 AK)). unfold pairs_remove, set_pairs.
      cbn [snd GroupProofs.slotR r_id r_pairs r_value].
      rewrite (set_remove_absent E); auto. eapply orphan_nowhere; [exact O|left; auto]. }
    apply modify_at with (f := set_l_hash (hashR E s b)) in AL.
    apply modify_at with (f := set_l_rid (y_id yb)) in AL.
    unfold insert, left_assign, right_assign. mrun. rewrite HB, FL, FJ.
    cbn [l_id l_hash l_rid l_value r_id snd fst GroupProofs.slotL GroupProofs.slotR right_set left_set set_left set_right].
    rewrite HQ, ZY, (o_rid _ _ _ _ _ _ _ _ O).
    change (hashL E s (z_l z), z_id z) with (pkey s z). fold rt. rewrite FK. cbn [fst].
    cbn [right_set left_set set_left set_right]. rewrite ID.
    eexists. split; [reflexivity|].
    cbn [right_set left_set set_left set_right hash_builder left_counter right_counter].
    unfold set_left, set_right; cbn; rewrite ?HB, (o_lc _ _ _ _ _ _ _ _ O), (o_rc _ _ _ _ _ _ _ _ O).
    eapply orphan_join; eauto.
  Qed.
  (* inserting the pair once more *)
  Lemma orphan_insert_again : forall s lc rc m z A y B l b, orphan s lc rc m z A y B ->
    eqL E l (z_l z) = true -> eqR E b (y_r y) = true ->
    exists m' y', insert E l b m = Ret m' tt /\ orphan s lc rc m' z A y' B /\ y_r y' = y_r y.
  Proof.
    intros s lc rc m z A y B l b O Q QB.
    assert (H1 := o_1 _ _ _ _ _ _ _ _ O). assert (HB := rep_hb _ _ _ _ _ _ _ _ H1). cbn in HB.
    assert (H0 := o_0 _ _ _ _ _ _ _ _ O).
    assert (HQ : hashL E s l = hashL E s (z_l z)) by (apply (hashL_ok _ OK); auto).
    assert (HR : hashR E s b = hashR E s (y_r y)) by (apply (hashR_ok _ OK); auto).
    assert (NB : forall x, In x B -> eqR E b (y_r x) = false).
    { intros x Hx. rewrite (eqb_replace_l _ ER _ _ _ QB).
      assert (D := rep_eqr _ _ _ _ _ _ _ _ H0). simpl in D. apply distinct_cons in D as [D _].
      apply D. apply in_map; auto. }
    destruct (orphan_facts _ _ _ _ _ _ _ _ O) as (ZY & F & LT & DH).
    destruct (find_key_left E OK _ _ _ _ _ _ _ _ l H1 Q) as (i & FL & AL).
    { intros w Hw. rewrite (eqb_replace_l _ EL _ _ _ Q). auto. }
    destruct (find_key_right E OK _ _ _ _ _ _ _ _ _ H0 QB NB) as (j & FJ & AJ).
    cbn [left_set right_set with_z without set_left set_right] in FL, AL, FJ, AJ.
    apply modify_at with (f := pairs_insert E (pkey s z)) in AJ.
    set (rt := t_modify (right_set m) j (pairs_insert E (pkey s z))) in *.
    destruct (get_mut_unique E OK rt (hashR E s (y_r y)) (right_with_right_id (y_id y))
      (pairs_insert E (pkey s z) (snd (slotR s y))) (map (slotR s) B)) as (k & FK & AK).
    { apply AJ. }
    { apply N.eqb_refl. }
    { intros x Hx. eapply (id_r_other E); [|exact Hx].
      assert (ND := rep_rids _ _ _ _ _ _ _ _ H0). inversion ND; auto. }
    apply modify_at with (f := pairs_remove E (pkey s z)) in AK.
    unfold insert, left_assign, right_assign. mrun. rewrite HB, FL, FJ.
    cbn [l_id l_hash l_rid l_value r_id snd fst GroupProofs.slotL GroupProofs.slotR right_set left_set set_left set_right].
    rewrite HQ, ZY, (o_rid _ _ _ _ _ _ _ _ O).
    change (hashL E s (z_l z), z_id z) with (pkey s z). fold rt. rewrite FK. cbn [fst].
    cbn [right_set left_set set_left set_right].
    rewrite (t_modify_id (left_set m) i _ _ _ (proj1 AL)).
    2:{ unfold set_l_hash. cbn [snd GroupProofs.slotL l_value l_rid l_id]. rewrite HR, ZY. reflexivity. }
    rewrite (t_modify_id (left_set m) i _ _ _ (proj1 AL)).
    2:{ unfold set_l_rid. cbn [snd GroupProofs.slotL l_value l_hash l_id]. rewrite (o_rid _ _ _ _ _ _ _ _ O). reflexivity. }
    set (y' := dropped s z (joined s z y)).
    eexists. exists y'. split; [reflexivity|]. split; [|reflexivity].
    apply orphan_of; try (apply (o_g _ _ _ _ _ _ _ _ O)); try apply (o_rid _ _ _ _ _ _ _ _ O); auto.
    - assert (C1 := rep_core E _ _ _ _ _ _ _ H1).
      destruct (core_leave E OK _ _ _ _ _ _ _ _ C1 (o_g _ _ _ _ _ _ _ _ O)) as [C2 _].
      apply core_rep.
      + exact C2.
      + exact HB.
      + reflexivity.
      + apply (proj2 AK).
    - apply (rep_l _ _ _ _ _ _ _ _ H1).
    - apply (o_rids _ _ _ _ _ _ _ _ O).
    - apply (o_lc _ _ _ _ _ _ _ _ O).
    - apply (o_rc _ _ _ _ _ _ _ _ O).
  Qed.

  (* ---- C48: insert of a pair that is there ---- *)
  (* What insert does to a pair that is already in the map.  iter_right, iter_paired, iter_left,
     get_right, contains_left and contains_right do not notice; all functions that ask the right
     item for its left items no longer know l.  remove_left(l) and insert(l, b) with a new b
     panic.  Inserting the same pair again changes nothing; pair(l, b), and insert(l, b) with
     another b that is in the map, repair it. *)
  Theorem C48_reinsert_partial : forall m l r, reachable E 0 m -> are_paired E m l r = true ->
    exists rs ps m' l0, let known := filter (notl l) ps in
      holds E m rs ps /\ insert E l r m = Ret m' tt /\ In l0 (map fst ps) /\ l =L l0 /\
      (* still the same *)
      holds E m' rs ps /\ left_rest (iter_left m') = left_rest (iter_left m) /\
      len_left m' = len_left m /\ len_right m' = len_right m /\
      (forall q, get_right E m' q = get_right E m q) /\
      (forall q, contains_left E m' q = contains_left E m q) /\
      (forall b, contains_right E m' b = contains_right E m b) /\
      (* without l *)
      (forall a b, are_paired E m' a b = are_paired E m a b && negb (eqL E a l)) /\
      (forall b, is_right_paired E m' b = true <-> exists a c, In (a, c) known /\ b =R c) /\
      (forall b, match get_left_iter E m' b with
                 | Some it => exists Q, pair_rest E m' it = Done Q /\ Permutation Q (lefts_of E known b)
                 | None => contains_right E m b = false
                 end) /\
      (exists Q, unpaired_rest (iter_unpaired m') = Done Q /\ Permutation Q (lonely E rs known)) /\
      (exists Q, iter_rest E m' (iter m') = Done Q /\
         Permutation Q (map (fun p => (Some (fst p), snd p)) known ++
                        map (fun b => (None, b)) (lonely E rs known))) /\
      (* what happens to l next *)
      (exists m'', remove_left E l m' = Panic m'') /\
      (forall b, contains_right E m b = false -> exists m'', insert E l b m' = Panic m'') /\
      (forall b b0, In b0 rs -> b =R b0 ->
         exists m'', pair E l b m' = Ret m'' true /\
           answers E m'' rs ((l0, b0) :: known) /\ follows E m'' ((l0, b0) :: known)) /\
      (forall b b0, In b0 rs -> b =R b0 -> eqR E b r = false ->
         exists m'', insert E l b m' = Ret m'' tt /\
           answers E m'' rs ((l0, b0) :: known) /\ follows E m'' ((l0, b0) :: known)) /\
      (exists m'', insert E l r m' = Ret m'' tt /\ are_paired E m'' l r = false /\
         contains_left E m'' l = true).
  Proof.
    intros m l r H AP. apply (reachable_repr E OK) in H as (s & lc & rc & G & H & B1 & B2).
    apply (GroupProps.view E OK) in H as (rs & ps & V & _ & _ & H).
    assert (HR := H). destruct H as (A & D & B & H & EG & [T1 T2] & CL & CR).
    rewrite (T1 eq_refl) in *. clear D T1. specialize (T2 eq_refl).
    assert (ERS : rs = map y_r B) by (inversion EG; auto).
    assert (EPS : ps = map z_pair A) by (inversion EG; auto).
    destruct (split_l E OK _ _ _ _ _ _ _ l H) as [(z & A' & P & H1 & Q & HQ & N)|N].
    2:{ unfold are_paired in AP. rewrite (find_left_none E OK _ _ _ _ _ _ _ _ H N) in AP. discriminate. }
    destruct (split_r E OK _ _ _ _ _ _ _ r H) as [(y & B' & PB & H2 & QR & HQR & NR)|NR].
    2:{ unfold are_paired in AP. rewrite (find_right_none E OK _ _ _ _ _ _ _ _ H NR) in AP.
        destruct (find_left E m l); discriminate. }
    assert (H3 := rep_perm E OK _ _ _ _ _ _ _ _ _ (Permutation_refl _) PB H1).
    rewrite (are_paired_z E OK _ _ _ _ _ _ _ _ _ _ _ H3 Q N QR NR) in AP.
    unfold in_group in AP. apply N.eqb_eq in AP.
    assert (RIDS : ridsZ (z :: A')) by (intros x Hx; apply T2; eapply Permutation_in; [symmetry; exact P|auto]).
    assert (RZ : z_rid z = y_id y) by (rewrite RIDS by (left; auto); auto).
    assert (ZY : z_r z = y_r y) by (eapply (in_group_r E); [exact H3|left; auto|left; auto|auto]).
    destruct (reinsert_run _ _ _ _ _ _ _ _ _ _ _ H3 Q N QR NR AP RZ) as (k & HI & H0). cbv zeta in H0.
    set (m' := set_right (t_modify (right_set m) k (pairs_remove E (pkey s z))) m) in *.
    assert (O : orphan s lc rc m' z A' (dropped s z y) B').
    { assert (C := rep_core E _ _ _ _ _ _ _ H3).
      apply orphan_of; auto.
      - apply (rep_l _ _ _ _ _ _ _ _ H3).
      - intros x Hx. apply RIDS. right; auto.
      - assert (ND := c_lids _ _ _ _ _ _ _ C). rewrite app_nil_r in ND. simpl in ND. inversion ND; auto.
      - apply (c_llt _ _ _ _ _ _ _ C z). left; auto.
      - apply (distinct_head E z_l). apply (c_eql _ _ _ _ _ _ _ C). }
    assert (PPS : Permutation ps ((z_l z, z_r z) :: map z_pair A')).
    { rewrite EPS. exact (Permutation_map z_pair P). }
    assert (PRS : Permutation rs (map y_r (dropped s z y :: B'))).
    { rewrite ERS. exact (Permutation_map y_r PB). }
    assert (PL : Permutation (filter (notl l) ps) (map z_pair A')).
    { rewrite (filter_perm _ _ _ PPS). cbn [filter fst]. rewrite Q. simpl. rewrite filter_all_true; auto.
      intros p Hp. apply in_map_iff in Hp as (x & <- & Hx). cbn. rewrite (N x Hx). auto. }
    assert (R1 : Repr (true, true) s lc rc (with_z s z (dropped s z y) B' m') (GC rs ps)).
    { eapply (repr_same E OK); [|apply (orphan_repr1 _ _ _ _ _ _ _ _ O)]. split; simpl; symmetry; auto. }
    assert (R0 : Repr (true, true) s lc rc (without s A' m') (GC rs (filter (notl l) ps))).
    { eapply (repr_same E OK); [|apply (orphan_repr0 _ _ _ _ _ _ _ _ O)]. split; simpl; symmetry; auto. }
    assert (A0 := answers_repr E OK _ _ _ _ _ _ _ R0).
    assert (LK1 := tame_all_linked E OK _ _ _ _ _ _ R1).
    assert (LK := tame_all_linked E OK _ _ _ _ _ _ HR).
    assert (CR' : forall b, contains_right E m' b = contains_right E m b).
    { intros b. change (contains_right E m' b) with (contains_right E (without s A' m') b).
      rewrite (contains_right_ok E OK _ _ _ _ _ _ b R0), (contains_right_ok E OK _ _ _ _ _ _ b HR). auto. }
    assert (FIN : forall m'' b b0 ys, In b0 rs -> b =R b0 -> Permutation (dropped s z y :: B') ys ->
      (forall yb Bb, ys = yb :: Bb -> eqR E b (y_r yb) = true ->
         Repr (true, true) s lc rc m''
           (GC (map y_r (dropped s z y :: B')) ((z_l z, y_r yb) :: map z_pair A')) ->
         answers E m'' rs ((z_l z, b0) :: filter (notl l) ps) /\
         follows E m'' ((z_l z, b0) :: filter (notl l) ps))).
    { intros m'' b b0 ys Ib X Pys yb Bb -> Xb RR.
      assert (YB : y_r yb = b0).
      { destruct (repr_grouping E _ _ _ _ _ _ HR) as (_ & DR & _). simpl in DR.
        assert (Y : In (y_r yb) rs).
        { eapply Permutation_in; [symmetry; exact PRS|]. apply in_map.
          eapply Permutation_in; [symmetry; exact Pys|]. left; auto. }
        apply (distinct_map_inj (eqR E) ER (fun x => x) rs); auto.
        - rewrite map_id. auto.
        - rewrite <- (eqb_replace_l _ ER _ _ _ Xb). auto. }
      rewrite YB in RR.
      assert (R2 : Repr (true, true) s lc rc m'' (GC rs ((z_l z, b0) :: filter (notl l) ps))).
      { eapply (repr_same E OK); [|exact RR]. split; simpl; symmetry; auto. }
      split; [eapply (answers_repr E OK); eauto|].
      intros q b'. rewrite (get_right_ok E OK _ _ _ _ _ _ q R2).
      - apply (s_get_right_iff E OK rs). apply (repr_grouping E _ _ _ _ _ _ R2).
      - apply (tame_all_linked E OK _ _ _ _ _ _ R2). }
    exists rs, ps, m', (z_l z). cbv zeta.
    split; [exact V|]. split; [exact HI|]. split.
    { eapply Permutation_in; [symmetry; exact (Permutation_map fst PPS)|]. left; auto. }
    split; [exact Q|]. split.
    { destruct V as [V1 V2]. split.
      - rewrite <- V1. unfold iter_right, m'. cbn [right_set set_right]. apply right_rest_modify. auto.
      - rewrite <- V2. change (iter_paired m') with (iter_paired m). apply paired_collect_ext.
        intros x Hx. unfold iter_paired in Hx.
        eapply Permutation_in in Hx; [|apply (rep_l _ _ _ _ _ _ _ _ H3)].
        apply in_map_iff in Hx as (w & <- & Hw). cbn [snd GroupProofs.slotL l_hash l_rid].
        rewrite (orphan_value _ _ _ _ _ _ _ _ w O Hw).
        destruct (rid_right E OK _ _ _ _ _ _ _ w H3 RIDS Hw) as (y' & -> & <-). auto. }
    split; [reflexivity|]. split; [reflexivity|]. split.
    { unfold len_right, t_len, m'. cbn [right_set set_right]. unfold t_modify. cbn [slots].
      apply update_nth_length. }
    split.
    { intros q. rewrite (orphan_get_right _ _ _ _ _ _ _ _ q O).
      rewrite (get_right_ok E OK _ _ _ _ _ _ q R1 (LK1 q)), (get_right_ok E OK _ _ _ _ _ _ q HR (LK q)). auto. }
    split; [reflexivity|]. split; [exact CR'|]. split.
    { intros a b. rewrite (orphan_are_paired _ _ _ _ _ _ _ _ a b O).
      rewrite (are_paired_ok E OK _ _ _ _ _ _ a b R1), (are_paired_ok E OK _ _ _ _ _ _ a b HR).
      f_equal. f_equal. symmetry. apply (eqb_replace_r _ EL _ _ _ Q). }
    split.
    { intros b. change (is_right_paired E m' b) with (is_right_paired E (without s A' m') b).
      apply (an_is_right_paired _ _ _ _ A0). }
    split.
    { intros b. assert (X := an_get_left_iter _ _ _ _ A0 b).
      change (get_left_iter E (without s A' m') b) with (get_left_iter E m' b) in X.
      destruct (get_left_iter E m' b) as [it|] eqn:GI.
      - destruct X as (_ & Y). rewrite <- (orphan_pair_rest _ _ _ _ _ _ _ _ b it O GI) in Y. exact Y.
      - rewrite (contains_right_ok E OK _ _ _ _ _ _ b HR). apply existsb_false. exact X. }
    split; [exact (an_unpaired _ _ _ _ A0)|]. split.
    { rewrite (orphan_iter _ _ _ _ _ _ _ _ O).
      destruct (iter_ok E OK _ _ _ _ _ _ R0) as (l1 & _ & X1 & _ & X2).
      - apply (tame_all_linked E OK _ _ _ _ _ _ R0).
      - apply (tame_all_clean E OK _ _ _ _ _ _ R0).
      - exists l1. split; auto. rewrite X2. unfold s_items. rewrite (lonely_unpaired E). auto. }
    split; [eapply orphan_remove_left; eauto|]. split.
    { intros b CB. eapply orphan_insert_new; [exact O|exact Q|].
      rewrite (contains_right_ok E OK _ _ _ _ _ _ b HR) in CB. unfold s_contains_right in CB. simpl in CB.
      rewrite existsb_false in CB. intros x Hx. apply CB.
      eapply Permutation_in; [symmetry; exact PRS|]. apply in_map; auto. }
    assert (SPL : forall b b0, In b0 rs -> b =R b0 -> exists yb Bb,
      Permutation (dropped s z y :: B') (yb :: Bb) /\ eqR E b (y_r yb) = true /\
      forall x, In x Bb -> eqR E b (y_r x) = false).
    { intros b b0 Ib X. destruct (split_r E OK _ _ _ _ _ _ _ b H0) as [(yb & Bb & P1 & _ & X1 & _ & N1)|N1].
      - exists yb, Bb. auto.
      - exfalso. eapply Permutation_in in Ib; [|exact PRS]. apply in_map_iff in Ib as (x & <- & Hx).
        rewrite (N1 x Hx) in X. discriminate. }
    split; [|split].
    - intros b b0 Ib X. destruct (SPL b b0 Ib X) as (yb & Bb & P1 & X1 & N1).
      destruct (orphan_pair _ _ _ _ _ _ _ _ l b yb Bb O Q P1 X1 N1) as (m'' & PI & RR).
      exists m''. split; auto. eapply FIN; eauto.
    - intros b b0 Ib X NBR. destruct (SPL b b0 Ib X) as (yb & Bb & P1 & X1 & N1).
      destruct (orphan_insert_other _ _ _ _ _ _ _ _ l b yb Bb O Q P1 X1 N1) as (m'' & PI & RR).
      + cbn. rewrite <- NBR. symmetry. apply (eqb_replace_r _ ER _ _ _ QR).
      + exists m''. split; auto. eapply FIN; eauto.
    - destruct (orphan_insert_again _ _ _ _ _ _ _ _ l r O Q QR) as (m'' & y' & I2 & O2 & _).
      exists m''. split; [exact I2|]. split.
      + rewrite (orphan_are_paired _ _ _ _ _ _ _ _ l r O2), Q. apply andb_false_r.
      + change (contains_left E m'' l) with (contains_left E (with_z s z y' B' m'') l).
        rewrite (contains_left_ok E OK _ _ _ _ _ _ l (orphan_repr1 _ _ _ _ _ _ _ _ O2)).
        unfold s_contains_left, GroupProofs.view. cbn [g_pairs map existsb]. unfold is_l at 1. cbn [z_pair fst].
        rewrite Q. auto.
  Qed.

  (* ---- C50, C51: left items whose right id leads nowhere ---- *)
  Definition dangling (s : S) (m : gmap L R S) (z : zl) : Prop :=
    t_get (lo E) (right_set m) (hashR E s (z_r z)) (right_with_right_id (z_rid z)) = None.

  Lemma get_mut_none : forall {A} (t : table A) h p, t_get (lo E) t h p = None -> t_get_mut E t h p = None.
  Proof.
    intros A t h p H. rewrite (get_mut_get E) in H. destruct (t_get_mut E t h p); auto. discriminate.
  Qed.

  Lemma dangling_get_right : forall s lc rc m z A D B l, Rep s lc rc m (z :: A) D B ->
    eqL E l (z_l z) = true -> (forall x, In x A -> eqL E l (z_l x) = false) -> dangling s m z ->
    get_right E m l = None.
  Proof.
    intros s lc rc m z A D B l H Q N DG. unfold get_right, get_right_q. fold (find_left E m l).
    rewrite (find_left_some E OK _ _ _ _ _ _ _ _ _ H Q N). cbn [snd GroupProofs.slotL l_hash l_rid].
    unfold dangling in DG. rewrite DG. auto.
  Qed.
  Lemma dangling_paired : forall s lc rc m A D B z, Rep s lc rc m A D B -> In z A -> dangling s m z ->
    paired_rest E m (iter_paired m) = Panicked.
  Proof.
    intros s lc rc m A D B z H Hz DG. unfold paired_rest, iter_paired.
    assert (IN : In (slotL s z) (slots (left_set m))).
    { eapply Permutation_in; [symmetry; apply (rep_l _ _ _ _ _ _ _ _ H)|apply in_map; auto]. }
    induction (slots (left_set m)) as [|[h x] it IH]; [easy|]. cbn [length collect paired_next].
    destruct IN as [IN|IN].
    - inversion IN; subst. cbn [l_hash l_rid]. unfold dangling in DG. rewrite DG. auto.
    - destruct (t_get (lo E) (right_set m) (l_hash x) (right_with_right_id (l_rid x))); auto.
      rewrite IH; auto.
  Qed.
  (* iter meets every key of a set; it follows the right id of all but the first *)
  Definition good_key (m : gmap L R S) (p : N * N) : Prop := exists x r,
    t_get (lo E) (left_set m) (fst p) (left_with_left_id (snd p)) = Some x /\
    t_get (lo E) (right_set m) (l_hash x) (right_with_right_id (l_rid x)) = Some r.
  Lemma iter_done : forall m fuel it l, collect (iter_next E m) fuel it = Done l ->
    (forall p, In p (match left_iter it with Some ps => ps | None => [] end) -> good_key m p) /\
    (forall x p, In x (right_iter it) -> In p (tl (hs_elems (r_pairs (snd x)))) -> good_key m p).
  Proof.
    intros m. induction fuel as [|fuel IH]; intros [rit lit] l H; cbn [collect] in H.
    - unfold iter_next in H. cbn [left_iter right_iter] in *.
      assert (X : forall q, match iter_next_right E m q rit with
        | Done (Some _, _) => Panicked | Done (None, _) => Done [] | Panicked => Panicked end = Done l ->
        rit = []).
      { intros q Y. unfold iter_next_right in Y. destruct rit as [|[h r] rit]; auto.
        destruct (hs_elems (r_pairs r)) as [|[a b] ps]; discriminate. }
      destruct lit as [[|[h i] ps]|].
      + apply X in H. subst. split; [intros p []|intros x p []].
      + destruct (t_get (lo E) (left_set m) h (left_with_left_id i)); [|discriminate].
        destruct (t_get (lo E) (right_set m) (l_hash l0) (right_with_right_id (l_rid l0)));
          cbn in H; congruence.
      + apply X in H. subst. split; [intros p []|intros x p []].
    - set (c := collect (iter_next E m) fuel) in *. unfold iter_next in H. cbn [left_iter right_iter] in *.
      assert (X : forall q, match iter_next_right E m q rit with
        | Done (Some a, it') => omap (cons a) (c it')
        | Done (None, _) => Done [] | Panicked => Panicked end = Done l ->
        forall x p, In x rit -> In p (tl (hs_elems (r_pairs (snd x)))) -> good_key m p).
      { intros q Y x p Hx Hp. unfold iter_next_right in Y. destruct rit as [|[h r] rit]; [easy|].
        destruct (hs_elems (r_pairs r)) as [|[a b] ps] eqn:W.
        - destruct (c (Iter rit q)) as [l1|] eqn:C; [|discriminate].
          destruct (IH _ _ C) as [_ I2]. destruct Hx as [<-|Hx]; [|exact (I2 x p Hx Hp)].
          cbn [snd] in Hp. rewrite W in Hp. contradiction.
        - destruct (c (Iter rit (Some ps))) as [l1|] eqn:C; [|discriminate].
          destruct (IH _ _ C) as [I1 I2]. destruct Hx as [<-|Hx]; [|exact (I2 x p Hx Hp)].
          cbn [snd] in Hp. rewrite W in Hp. apply I1. exact Hp. }
      destruct lit as [[|[h i] ps]|].
      + split; [intros p []|exact (X _ H)].
      + destruct (t_get (lo E) (left_set m) h (left_with_left_id i)) as [x|] eqn:G1; [|discriminate].
        destruct (t_get (lo E) (right_set m) (l_hash x) (right_with_right_id (l_rid x))) as [r|] eqn:G2;
          [|discriminate].
        destruct (c (Iter rit (Some ps))) as [l1|] eqn:C; [|discriminate].
        destruct (IH _ _ C) as [I1 I2]. split; [|exact I2].
        intros p [<-|Hp]; [exists x, r; auto|apply I1; exact Hp].
      + split; [intros p []|exact (X _ H)].
  Qed.
  Lemma dangling_iter : forall s lc rc m A D B y, Rep s lc rc m A D B -> In y B ->
    (forall z, In z A -> z_g z = y_id y -> dangling s m z) ->
    (2 <= length (filter (in_group (y_id y)) A))%nat -> iter_rest E m (iter m) = Panicked.
  Proof.
    intros s lc rc m A D B y H Hy DG LN. unfold iter_rest.
    destruct (collect (iter_next E m) (iter_bound (iter m)) (iter m)) as [l|] eqn:C; auto.
    apply iter_done in C as [_ I2]. cbn [iter right_iter] in I2.
    destruct (tab_elems E _ _ _ _ _ _ _ y H Hy) as (zs & QE & PZ).
    assert (LZ : (2 <= length zs)%nat).
    { rewrite (Permutation_length PZ), filter_app, app_length. lia. }
    destruct zs as [|z1 [|z2 zs]]; cbn [length] in LZ; [lia|lia|].
    assert (K : good_key m (pkey s z2)).
    { apply (I2 (slotR s y)).
      - eapply Permutation_in; [symmetry; apply (rep_r _ _ _ _ _ _ _ _ H)|apply in_map; auto].
      - cbn [snd GroupProofs.slotR r_pairs]. rewrite QE. left; auto. }
    destruct K as (x & r & K1 & K2). unfold GroupProofs.pkey in K1. cbn [fst snd] in K1.
    assert (HZ : In z2 (filter (in_group (y_id y)) (A ++ D))).
    { eapply Permutation_in; [exact PZ|right; left; auto]. }
    apply filter_In in HZ as [HZ G2]. apply in_app_iff in HZ as [HZ|HZ].
    - rewrite (get_left_id E OK _ _ _ _ _ _ _ z2 H HZ) in K1. inversion K1; subst x.
      cbn [l_hash l_rid] in K2. unfold in_group in G2. apply N.eqb_eq in G2.
      assert (X := DG z2 HZ G2). unfold dangling in X. congruence.
    - rewrite (get_left_id_dead E _ _ _ _ _ _ _ z2 _ H HZ) in K1. discriminate.
  Qed.

  Lemma dangling_pair : forall s lc rc m z A D B l b, Rep s lc rc m (z :: A) D B ->
    eqL E l (z_l z) = true -> (forall x, In x A -> eqL E l (z_l x) = false) -> dangling s m z ->
    contains_right E m b = true -> exists m', pair E l b m = Panic m'.
  Proof.
    intros s lc rc m z A D B l b H Q N DG CB. assert (HB := rep_hb _ _ _ _ _ _ _ _ H).
    destruct (find_key_left E OK _ _ _ _ _ _ _ _ _ H Q N) as (i & FL & AL).
    unfold pair, left_assign, contains_right in *. mrun. rewrite HB, FL.
    destruct (find_right E m b) as [r|]; [|discriminate].
    cbn [snd GroupProofs.slotL l_hash l_rid l_id right_set set_left].
    unfold dangling in DG. rewrite (get_mut_none _ _ _ DG). eauto.
  Qed.
  Lemma dangling_insert : forall s lc rc m z A D B l b, Rep s lc rc m (z :: A) D B ->
    eqL E l (z_l z) = true -> (forall x, In x A -> eqL E l (z_l x) = false) -> dangling s m z ->
    contains_right E m b = true -> exists m', insert E l b m = Panic m'.
  Proof.
    intros s lc rc m z A D B l b H Q N DG CB. assert (HB := rep_hb _ _ _ _ _ _ _ _ H).
    destruct (find_key_left E OK _ _ _ _ _ _ _ _ _ H Q N) as (i & FL & AL).
    unfold contains_right, find_right in CB. rewrite (get_mut_get E) in CB.
    unfold insert, left_assign, right_assign in *. mrun. rewrite HB in *. rewrite FL.
    destruct (t_get_mut E (right_set m) (hashR E s b) (equivalent_key_right (eqR E) b)) as [[j r]|];
      [|discriminate].
    cbn [snd fst GroupProofs.slotL l_hash l_rid l_id right_set set_left set_right].
    unfold dangling in DG. apply get_mut_none in DG. unfold t_get_mut in *.
    rewrite t_find_modify by reflexivity.
    destruct (t_find (lo E) (right_set m) (hashR E s (z_r z)) (right_with_right_id (z_rid z))) as [k|] eqn:FK; eauto.
    exfalso. destruct (t_find_some _ _ _ _ _ FK) as (h0 & e0 & NE & _).
    unfold t_entry in DG. rewrite NE in DG. discriminate.
  Qed.

  Lemma pick_l : forall s lc rc m A D B z l, Rep s lc rc m A D B -> In z A -> eqL E l (z_l z) = true ->
    exists A', Permutation A (z :: A') /\ Rep s lc rc m (z :: A') D B /\
      forall x, In x A' -> eqL E l (z_l x) = false.
  Proof.
    intros s lc rc m A D B z l H Hz X. apply perm_in_cons in Hz as [A' P].
    assert (H1 := rep_perm E OK _ _ _ _ _ _ _ _ _ P (Permutation_refl _) H).
    exists A'. split; auto. split; auto. intros x Hx. rewrite (eqb_replace_l _ EL _ _ _ X).
    apply (distinct_head E z_l z A'); auto. apply (rep_eql _ _ _ _ _ _ _ _ H1).
  Qed.
  Lemma paired_with : forall s lc rc m A D y B l old, Rep s lc rc m A D (y :: B) ->
    eqR E old (y_r y) = true -> (forall x, In x B -> eqR E old (y_r x) = false) ->
    are_paired E m l old = true ->
    exists z, In z A /\ eqL E l (z_l z) = true /\ in_group (y_id y) z = true.
  Proof.
    intros s lc rc m A D y B l old H Q N AP.
    destruct (split_l E OK _ _ _ _ _ _ _ l H) as [(z & A' & P & H1 & QL & HQ & NL)|NL].
    - exists z. split; [eapply Permutation_in; [symmetry; exact P|left; auto]|]. split; auto.
      rewrite <- (are_paired_z E OK _ _ _ _ _ _ _ _ _ _ _ H1 QL NL Q N). auto.
    - unfold are_paired in AP. rewrite (find_left_none E OK _ _ _ _ _ _ _ _ H NL) in AP. discriminate.
  Qed.
  Lemma group_size : forall s lc rc m A D B y old, Rep s lc rc m A D B -> In y B ->
    eqR E old (y_r y) = true ->
    length (filter (in_group (y_id y)) A) = length (lefts_of E (map z_pair A) old).
  Proof.
    intros s lc rc m A D B y old H Hy Q. unfold lefts_of. rewrite map_length.
    assert (forall z, In z A -> in_group (y_id y) z = eqR E old (snd (z_pair z))).
    { intros z Hz. symmetry. exact (is_r_in_group E OK _ _ _ _ _ _ _ y old z H Hy Q Hz). }
    clear H. induction A as [|a A IH]; auto. cbn [map filter]. rewrite <- (H0 a) by (left; auto).
    destruct (in_group (y_id y) a); cbn [length]; rewrite IH; auto; intros z Hz; apply H0; right; auto.
  Qed.

  Lemma pick_r : forall s lc rc m A D B y r, Rep s lc rc m A D B -> In y B -> eqR E r (y_r y) = true ->
    exists B', Permutation B (y :: B') /\ Rep s lc rc m A D (y :: B') /\
      forall x, In x B' -> eqR E r (y_r x) = false.
  Proof.
    intros s lc rc m A D B y r H Hy X. apply perm_in_cons in Hy as [B' P].
    assert (H1 := rep_perm E OK _ _ _ _ _ _ _ _ _ (Permutation_refl _) P H).
    exists B'. split; auto. split; auto. intros x Hx. rewrite (eqb_replace_l _ ER _ _ _ X).
    assert (W := rep_eqr _ _ _ _ _ _ _ _ H1). cbn [map] in W. apply distinct_cons in W as [W _].
    apply W, in_map. auto.
  Qed.
  (* What swap_right_remove does to the left items of old: every lookup of their right item
     fails, and so does every call that needs it. *)
  Theorem C51_moved_partial : forall m old new, reachable E 1 m ->
    is_right_paired E m old = true -> contains_right E m new = false \/ old =R new ->
    exists rs ps m' old0, holds E m rs ps /\ In old0 rs /\ old =R old0 /\
      swap_right_remove E old new m = Ret m' (Some old0) /\
      (forall l, are_paired E m l old = true ->
         get_right E m' l = None /\
         (forall b, contains_right E m' b = true ->
            (exists m'', pair E l b m' = Panic m'') /\ (exists m'', insert E l b m' = Panic m'')) /\
         (* but it can be removed *)
         exists m'' l0, In l0 (map fst ps) /\ l =L l0 /\ remove_left E l m' = Ret m'' (Some l0) /\
           answers E m'' (new :: filter (fun b => negb (eqR E old b)) rs)
             (filter (notl l) (move_to E old new ps))) /\
      paired_rest E m' (iter_paired m') = Panicked /\
      ((2 <= length (lefts_of E ps old))%nat -> iter_rest E m' (iter m') = Panicked).
  Proof.
    intros m old new H RP NW. apply (reachable_repr E OK) in H as (s & lc & rc & G & H & B1 & B2).
    apply (GroupProps.view E OK) in H as (rs & ps & V & _ & _ & H).
    assert (HR := H). destruct H as (A & D & B & H & EG & [T1 T2] & CL & CR).
    assert (CLN := tame_all_clean E OK _ _ _ _ _ _ HR).
    rewrite (T1 eq_refl) in *. clear D T1. specialize (T2 eq_refl).
    assert (ERS : rs = map y_r B) by (inversion EG; auto).
    assert (EPS : ps = map z_pair A) by (inversion EG; auto).
    rewrite (is_right_paired_ok E OK _ _ _ _ _ _ old HR (CLN old)) in RP.
    destruct (split_r E OK _ _ _ _ _ _ _ old H) as [(y & B' & PB & H2 & Q & HQ & N)|N].
    2:{ rewrite EG in RP. unfold s_is_right_paired, GroupProofs.view in RP. cbn [g_pairs] in RP.
        apply existsb_exists in RP as (p & Hp & X). apply in_map_iff in Hp as (z & <- & Hz).
        rewrite (is_r_absent E _ _ _ _ _ _ _ old z H N Hz) in X. discriminate. }
    assert (Hy : In y B) by (eapply Permutation_in; [symmetry; exact PB|left; auto]).
    assert (NN : forall x, In x B' -> eqR E new (y_r x) = false).
    { intros x Hx. destruct NW as [NW|NW].
      - rewrite (contains_right_ok E OK _ _ _ _ _ _ new HR), EG in NW.
        eapply (view_r_absent E); [exact NW|]. eapply Permutation_in; [symmetry; exact PB|right; auto].
      - rewrite <- (eqb_replace_l _ ER _ _ _ NW). auto. }
    assert (BR : rc + 1 < two64) by lia.
    destruct (swap_right_remove_z E OK _ _ _ _ _ _ _ _ _ new H2 Q N (fun z (Hz : In z []) => match Hz with end) BR CL CR NN)
      as (m' & zs & tab & RUN & PZ & HN & CL' & CR').
    destruct (swap_right_remove_ok E OK _ _ _ _ _ _ old new HR) as (m2 & RUN2 & HS & _); [lia| |].
    { rewrite (contains_right_ok E OK _ _ _ _ _ _ old HR), EG, (contains_r_find E), (find_r_some E y A B' B old PB Q N).
      cbn [is_some]. split; auto. }
    rewrite RUN in RUN2. inversion RUN2 as [[E1 E2]]. subst m2.
    assert (F : find_r (eqR E) (GC rs ps) old = Some (y_r y)) by (rewrite EG; apply (find_r_some E y A B' B old PB Q N)).
    unfold s_swap_right_remove in HS. rewrite F in HS. cbn [g_rights g_pairs] in HS.
    assert (ZZ : forall w, In w zs -> In w A /\ z_g w = y_id y).
    { intros w Hw. eapply Permutation_in in Hw; [|exact PZ]. apply filter_In in Hw as [? X].
      split; auto. apply N.eqb_eq. exact X. }
    assert (ND := rep_rids _ _ _ _ _ _ _ _ H2). simpl in ND. inversion ND as [|? ? ND1 ND2]; subst x l.
    assert (YL := rep_rlt _ _ _ _ _ _ _ _ H2 y (or_introl eq_refl)).
    assert (DG : forall w, In w zs -> dangling s m' (moved rc new w)).
    { intros w Hw. unfold dangling. apply (t_get_absent (lo E)). intros x Hx.
      eapply Permutation_in in Hx; [|apply (rep_r _ _ _ _ _ _ _ _ HN)].
      destruct (ZZ w Hw) as [Hw' GW]. cbn [moved z_rid]. rewrite (T2 w Hw'), GW.
      destruct Hx as [<-|Hx]; [apply N.eqb_neq; simpl; lia|]. eapply (id_r_other E); [|exact Hx]. exact ND1. }
    exists rs, ps, m', (y_r y). split; [exact V|]. split; [rewrite ERS; apply in_map; auto|].
    split; [exact Q|]. split; [exact RUN|]. split; [|split].
    - intros l AP. destruct (paired_with _ _ _ _ _ _ _ _ _ _ H2 Q N AP) as (w & Hw & X & GW).
      assert (Hw2 : In w zs) by (eapply Permutation_in; [symmetry; exact PZ|apply filter_In; auto]).
      destruct (pick_l _ _ _ _ _ _ _ (moved rc new w) l HN) as (A2 & P2 & H3 & N3).
      { apply in_app_iff. left. apply in_map. auto. }
      { exact X. }
      assert (D2 := DG w Hw2). split; [|split].
      + eapply dangling_get_right; [exact H3|exact X|exact N3|exact D2].
      + intros b CB. split.
        * eapply dangling_pair; [exact H3|exact X|exact N3|exact D2|exact CB].
        * eapply dangling_insert; [exact H3|exact X|exact N3|exact D2|exact CB].
      + destruct (remove_left_ok E OK _ _ _ _ _ _ l HS) as (m3 & RL & HR3).
        exists m3, (z_l w). split; [|split; [exact X|split]].
        * rewrite EPS, map_map. change (fun x => fst (z_pair x)) with (@z_l L R). apply in_map. auto.
        * destruct (remove_left_some E OK _ _ _ _ _ _ _ _ _ H3 X N3) as (m4 & B4 & RL4 & _).
          rewrite RL in RL4. inversion RL4 as [[E3 E4]]. rewrite RL, <- E3, E4. reflexivity.
        * eapply (answers_repr E OK). exact HR3.
    - assert (exists w, In w zs) as (w & Hw).
      { rewrite EG in RP. unfold s_is_right_paired, GroupProofs.view in RP. cbn [g_pairs] in RP.
        apply existsb_exists in RP as (p & Hp & X). apply in_map_iff in Hp as (z & <- & Hz).
        rewrite (is_r_in_group E OK _ _ _ _ _ _ _ y old z H Hy Q Hz) in X.
        exists z. eapply Permutation_in; [symmetry; exact PZ|]. apply filter_In; auto. }
      eapply dangling_paired; [exact HN| |apply (DG w Hw)]. apply in_app_iff. left. apply in_map. auto.
    - intros LN. eapply (dangling_iter _ _ _ _ _ _ _ (ZR rc new tab)); [exact HN|left; auto| |].
      + intros z Hz GZ. apply in_app_iff in Hz as [Hz|Hz].
        * apply in_map_iff in Hz as (w & <- & Hw). auto.
        * exfalso. apply filter_In in Hz as [Hz _]. cbn in GZ.
          assert (Y := rep_llt _ _ _ _ _ _ _ _ H z). rewrite app_nil_r in Y. specialize (Y Hz). lia.
      + cbn [y_id]. rewrite filter_app, app_length. rewrite filter_all_true.
        * rewrite map_length, (Permutation_length PZ).
          rewrite (group_size _ _ _ _ _ _ _ y old H Hy Q), <- EPS. lia.
        * intros z Hz. apply in_map_iff in Hz as (w & <- & Hw). apply N.eqb_refl.
  Qed.

  (* What swap_right does to the left items of old: get_right answers the same for all of them,
     either None or (if the search for new's hash also looks at old) still old.  In the first
     case everything that needs the right item of one of them panics. *)
  Theorem C50_moved_partial : forall m old new, reachable E 1 m ->
    is_right_paired E m old = true -> contains_right E m new = false ->
    exists rs ps m' old0 found, holds E m rs ps /\ In old0 rs /\ old =R old0 /\
      swap_right E old new m = Ret m' tt /\
      (found = None \/ found = Some old0) /\
      (hashR E (hash_builder m) old = hashR E (hash_builder m) new -> found = Some old0) /\
      (forall l, are_paired E m l old = true ->
         get_right E m' l = found /\ are_paired E m' l new = true /\ are_paired E m' l old = false /\
         exists m'' l0, In l0 (map fst ps) /\ l =L l0 /\ remove_left E l m' = Ret m'' (Some l0) /\
           answers E m'' (new :: rs) (filter (notl l) (move_to E old new ps))) /\
      match found with
      | None =>
          (forall l b, are_paired E m l old = true -> contains_right E m' b = true ->
             (exists m'', pair E l b m' = Panic m'') /\ (exists m'', insert E l b m' = Panic m'')) /\
          paired_rest E m' (iter_paired m') = Panicked /\
          ((2 <= length (lefts_of E ps old))%nat -> iter_rest E m' (iter m') = Panicked)
      | Some _ =>
          exists ps', paired_rest E m' (iter_paired m') = Done ps' /\ Permutation ps' ps
      end.
  Proof.
    intros m old new H RP NW. apply (reachable_repr E OK) in H as (s & lc & rc & G & H & B1 & B2).
    apply (GroupProps.view E OK) in H as (rs & ps & V & _ & _ & H).
    assert (HR := H). destruct H as (A & D & B & H & EG & [T1 T2] & CL & CR).
    assert (CLN := tame_all_clean E OK _ _ _ _ _ _ HR).
    rewrite (T1 eq_refl) in *. clear D T1. specialize (T2 eq_refl).
    assert (ERS : rs = map y_r B) by (inversion EG; auto).
    assert (EPS : ps = map z_pair A) by (inversion EG; auto).
    rewrite (is_right_paired_ok E OK _ _ _ _ _ _ old HR (CLN old)) in RP.
    destruct (split_r E OK _ _ _ _ _ _ _ old H) as [(y & B' & PB & H2 & Q & HQ & N)|N].
    2:{ rewrite EG in RP. unfold s_is_right_paired, GroupProofs.view in RP. cbn [g_pairs] in RP.
        apply existsb_exists in RP as (p & Hp & X). apply in_map_iff in Hp as (z & <- & Hz).
        rewrite (is_r_absent E _ _ _ _ _ _ _ old z H N Hz) in X. discriminate. }
    assert (Hy : In y B) by (eapply Permutation_in; [symmetry; exact PB|left; auto]).
    assert (NN : forall x, In x (y :: B') -> eqR E new (y_r x) = false).
    { intros x Hx. rewrite (contains_right_ok E OK _ _ _ _ _ _ new HR), EG in NW.
      eapply (view_r_absent E); [exact NW|]. eapply Permutation_in; [symmetry; exact PB|auto]. }
    assert (BR : rc + 1 < two64) by lia.
    destruct (swap_right_z E OK _ _ _ _ _ _ _ _ _ new H2 Q N (fun z (Hz : In z []) => match Hz with end) BR CL CR NN)
      as (m' & zs & tab & t0 & RUN & PZ & HN & CL' & CR').
    destruct (swap_right_ok E OK _ _ _ _ _ _ old new HR) as (m2 & RUN2 & HS & _); [lia| |].
    { rewrite (contains_right_ok E OK _ _ _ _ _ _ old HR), EG, (contains_r_find E), (find_r_some E y A B' B old PB Q N).
      cbn [is_some]. split; auto. }
    rewrite RUN in RUN2. inversion RUN2 as [E1]. subst m2.
    assert (F : find_r (eqR E) (GC rs ps) old = Some (y_r y)) by (rewrite EG; apply (find_r_some E y A B' B old PB Q N)).
    unfold s_swap_right in HS. rewrite F in HS. cbn [g_rights g_pairs] in HS.
    assert (AN := answers_repr E OK _ _ _ _ _ _ _ HS).
    assert (HB := rep_hb _ _ _ _ _ _ _ _ H). assert (HB' := rep_hb _ _ _ _ _ _ _ _ HN).
    assert (ZZ : forall w, In w zs -> In w A /\ z_g w = y_id y).
    { intros w Hw. eapply Permutation_in in Hw; [|exact PZ]. apply filter_In in Hw as [? X].
      split; auto. apply N.eqb_eq. exact X. }
    set (found := option_map r_value (t_get (lo E) (right_set m') (hashR E s new) (right_with_right_id (y_id y)))).
    assert (ND := rep_rids _ _ _ _ _ _ _ _ HN). cbn [map y_id] in ND.
    assert (FD : (found = None \/ found = Some (y_r y)) /\
                 (hashR E s (y_r y) = hashR E s new -> found = Some (y_r y))).
    { split.
      - unfold found, t_get. destruct (t_find (lo E) (right_set m') (hashR E s new) (right_with_right_id (y_id y))) as [k|] eqn:FK; auto.
        destruct (t_find_some _ _ _ _ _ FK) as (h0 & e0 & NE & PE). unfold t_entry. rewrite NE.
        right. cbn [option_map]. f_equal. apply nth_error_In in NE.
        eapply Permutation_in in NE; [|apply (rep_r _ _ _ _ _ _ _ _ HN)].
        apply in_map_iff in NE as (x & X1 & X2). inversion X1; subst h0 e0. cbn [r_value].
        unfold right_with_right_id in PE. cbn [r_id] in PE. apply N.eqb_eq in PE.
        assert (x = ZR (y_id y) (y_r y) t0) as ->; auto.
        eapply (same_rid E); [exact HN|exact X2|right; left; auto|exact PE].
      - intros HH. unfold found. rewrite <- HH.
        assert (X := get_right_id E OK _ _ _ _ _ _ _ (ZR (y_id y) (y_r y) t0) HN (or_intror (or_introl eq_refl))).
        cbn [y_r y_id] in X. rewrite X. reflexivity. }
    destruct FD as [FD1 FD2].
    assert (GR : forall w, In w zs ->
      option_map r_value (t_get (lo E) (right_set m') (hashR E s (z_r (moved rc new w)))
        (right_with_right_id (z_rid (moved rc new w)))) = found).
    { intros w Hw. destruct (ZZ w Hw) as [Hw' GW]. cbn [moved z_r z_rid]. rewrite (T2 w Hw'), GW. auto. }
    assert (PK : forall l, are_paired E m l old = true -> exists w A2, In w zs /\ eqL E l (z_l w) = true /\
      Rep s lc (rc + 1) m' (moved rc new w :: A2) [] (ZR rc new tab :: ZR (y_id y) (y_r y) t0 :: B') /\
      (forall x, In x A2 -> eqL E l (z_l x) = false)).
    { intros l AP. destruct (paired_with _ _ _ _ _ _ _ _ _ _ H2 Q N AP) as (w & Hw & X & GW).
      assert (Hw2 : In w zs) by (eapply Permutation_in; [symmetry; exact PZ|apply filter_In; auto]).
      destruct (pick_l _ _ _ _ _ _ _ (moved rc new w) l HN) as (A2 & P2 & H3 & N3); [|exact X|].
      { apply in_app_iff. left. apply in_map. auto. }
      exists w, A2. auto. }
    exists rs, ps, m', (y_r y), found. split; [exact V|]. split; [rewrite ERS; apply in_map; auto|].
    split; [exact Q|]. split; [exact RUN|]. split; [exact FD1|]. split.
    { intros HH. apply FD2. rewrite <- HQ, <- HB. auto. }
    split.
    - intros l AP. destruct (PK l AP) as (w & A2 & Hw & X & H3 & N3). destruct (ZZ w Hw) as [HwA GW].
      assert (LOST : In (z_l w, new) (move_to E old new ps)).
      { unfold move_to. rewrite EPS. apply in_map_iff. exists (z_pair w). split; [|apply in_map; auto].
        assert (Y := is_r_in_group E OK _ _ _ _ _ _ _ y old w H Hy Q HwA). unfold is_r in Y. rewrite Y.
        unfold in_group. rewrite GW, N.eqb_refl. auto. }
      split; [|split; [|split]].
      + unfold get_right, get_right_q. fold (find_left E m' l).
        rewrite (find_left_some E OK _ _ _ _ _ _ _ _ _ H3 X N3). cbn [snd GroupProofs.slotL l_hash l_rid].
        apply GR. auto.
      + apply (an_are_paired _ _ _ _ AN). exists (z_l w), new. split; [exact LOST|].
        split; [exact X|apply (equiv_refl _ ER)].
      + destruct (are_paired E m' l old) eqn:Y; auto. exfalso.
        apply (an_are_paired _ _ _ _ AN) in Y as (a & b & HI & Xa & Xb).
        assert ((a, b) = (z_l w, new)) as Z.
        { destruct (repr_grouping E _ _ _ _ _ _ HS) as (DL & _). cbn [g_pairs] in DL.
          apply (distinct_map_inj (eqL E) EL fst _ _ _ DL HI LOST). cbn [fst].
          rewrite <- (eqb_replace_l _ EL _ _ _ Xa). auto. }
        inversion Z; subst a b. assert (W := NN y (or_introl eq_refl)).
        rewrite <- (eqb_replace_l _ ER _ _ _ Xb), Q in W. discriminate.
      + destruct (remove_left_ok E OK _ _ _ _ _ _ l HS) as (m3 & RL & HR3).
        exists m3, (z_l w). split; [|split; [exact X|split]].
        * rewrite EPS, map_map. change (fun x => fst (z_pair x)) with (@z_l L R). apply in_map. auto.
        * destruct (remove_left_some E OK _ _ _ _ _ _ _ _ _ H3 X N3) as (m4 & B4 & RL4 & _).
          rewrite RL in RL4. inversion RL4 as [[E3 E4]]. rewrite RL, <- E3, E4. reflexivity.
        * eapply (answers_repr E OK). exact HR3.
    - destruct found as [v|] eqn:FV.
      + assert (v = y_r y) as -> by (destruct FD1 as [X|X]; [discriminate|inversion X; auto]).
        destruct (order_l E _ _ _ _ _ _ _ HN) as (Y & PY & QY).
        set (vals := map (fun z => (z_l z, if z_g z =? rc then y_r y else z_r z)) Y).
        exists vals. split.
        * unfold paired_rest, iter_paired. rewrite QY. unfold vals.
          assert (IY : forall z, In z Y -> option_map r_value (t_get (lo E) (right_set m') (hashR E s (z_r z))
              (right_with_right_id (z_rid z))) = Some (if z_g z =? rc then y_r y else z_r z)).
          { intros z Hz. eapply Permutation_in in Hz; [|symmetry; exact PY].
            apply in_app_iff in Hz as [Hz|Hz].
            - apply in_map_iff in Hz as (w & <- & Hw). rewrite (GR w Hw). cbn [moved z_g]. rewrite N.eqb_refl. auto.
            - apply filter_In in Hz as [Hz NG].
              assert (LT := rep_llt _ _ _ _ _ _ _ _ H z). rewrite app_nil_r in LT. specialize (LT Hz).
              destruct (N.eqb_spec (z_g z) rc) as [EQ|NE]; [lia|].
              destruct (rep_link _ _ _ _ _ _ _ _ HN z) as (y1 & Hy1 & I1 & R1).
              { apply in_app_iff. right. apply filter_In; auto. }
              rewrite (T2 z Hz), <- I1, <- R1.
              rewrite (get_right_id E OK _ _ _ _ _ _ _ y1 HN Hy1). reflexivity. }
          clear - IY. induction Y as [|z Y IH]; auto. cbn [map length collect paired_next GroupProofs.slotL l_hash l_rid l_value].
          assert (X := IY z (or_introl eq_refl)).
          destruct (t_get (lo E) (right_set m') (hashR E s (z_r z)) (right_with_right_id (z_rid z))); [|discriminate].
          cbn [option_map] in X. inversion X as [X1]. rewrite X1.
          rewrite IH; [reflexivity|]. intros x Hx. apply IY. right; auto.
        * unfold vals. rewrite <- (Permutation_map _ PY), map_app, map_map, EPS.
          rewrite (Permutation_map z_pair (split_group (y_id y) A)), map_app.
          apply Permutation_app.
          { rewrite <- PZ. apply Permutation_map_same. intros w Hw. cbn [moved z_l z_g]. rewrite N.eqb_refl.
            unfold z_pair. f_equal. destruct (ZZ w Hw) as [Hw' GW]. symmetry.
            eapply (in_group_r E); [exact H|exact Hy|exact Hw'|exact GW]. }
          { apply Permutation_map_same. intros z Hz. apply filter_In in Hz as [Hz _].
            assert (LT := rep_llt _ _ _ _ _ _ _ _ H z). rewrite app_nil_r in LT. specialize (LT Hz).
            destruct (N.eqb_spec (z_g z) rc) as [EQ|NE]; [lia|]. auto. }
      + assert (DG : forall w, In w zs -> dangling s m' (moved rc new w)).
        { intros w Hw. unfold dangling. assert (X := GR w Hw).
          destruct (t_get (lo E) (right_set m') (hashR E s (z_r (moved rc new w))) (right_with_right_id (z_rid (moved rc new w)))); auto; discriminate. }
        split; [|split].
        * intros l b AP CB. destruct (PK l AP) as (w & A2 & Hw & X & H3 & N3). assert (D2 := DG w Hw). split.
          { eapply dangling_pair; [exact H3|exact X|exact N3|exact D2|exact CB]. }
          { eapply dangling_insert; [exact H3|exact X|exact N3|exact D2|exact CB]. }
        * assert (exists w, In w zs) as (w & Hw).
          { rewrite EG in RP. unfold s_is_right_paired, GroupProofs.view in RP. cbn [g_pairs] in RP.
            apply existsb_exists in RP as (p & Hp & X). apply in_map_iff in Hp as (z & <- & Hz).
            rewrite (is_r_in_group E OK _ _ _ _ _ _ _ y old z H Hy Q Hz) in X.
            exists z. eapply Permutation_in; [symmetry; exact PZ|]. apply filter_In; auto. }
          eapply dangling_paired; [exact HN| |apply (DG w Hw)]. apply in_app_iff. left. apply in_map. auto.
        * intros LN. eapply (dangling_iter _ _ _ _ _ _ _ (ZR rc new tab)); [exact HN|left; auto| |].
          { intros z Hz GZ. apply in_app_iff in Hz as [Hz|Hz].
            - apply in_map_iff in Hz as (w & <- & Hw). auto.
            - exfalso. apply filter_In in Hz as [Hz _]. cbn in GZ.
              assert (Y := rep_llt _ _ _ _ _ _ _ _ H z). rewrite app_nil_r in Y. specialize (Y Hz). lia. }
          { cbn [y_id]. rewrite filter_app, app_length. rewrite filter_all_true.
            - rewrite map_length, (Permutation_length PZ).
              rewrite (group_size _ _ _ _ _ _ _ y old H Hy Q), <- EPS. lia.
            - intros z Hz. apply in_map_iff in Hz as (w & <- & Hw). apply N.eqb_refl. }
  Qed.

  (* ---- C55: iter() and its clones ---- *)
  (* [last]: the item yielded last *)
  Definition to_come (A : list zl) (s : S) (last : option (option L * R)) (it : iter_t)
      (l : list (option L * R)) : Prop :=
    exists zs gs, incl zs A /\ (forall g, In g gs -> good E A s g) /\
      (left_iter it = Some (map (pkey s) zs) \/ left_iter it = None /\ zs = []) /\
      right_iter it = map (slotR s) (map fst gs) /\
      l = map (fun z => (Some (z_l z), z_r z)) zs ++ flat_map gitems gs /\
      distinct (eqR E) (map y_r (map fst gs)) /\
      match last with
      | Some x => (forall z, In z zs -> z_r z = snd x) /\
                  (forall g, In g gs -> eqR E (snd x) (y_r (fst g)) = false)
      | None => zs = []
      end.
  Lemma to_come_step : forall s lc rc m A D B last it l, Rep s lc rc m A D B -> ridsZ A ->
    to_come A s last it l ->
    match l with
    | [] => exists it', iter_next E m it = Done (None, it') /\ to_come A s last it' []
    | a :: t => exists it', iter_next E m it = Done (Some a, it') /\ to_come A s (Some a) it' t
    end.
  Proof.
    intros s lc rc m A D B last it l H RZ (zs & gs & I & GG & HL & HR & -> & DS & LS).
    destruct zs as [|z zs]; cbn [map app].
    - assert (NX : iter_next E m it = iter_next_right E m (left_iter it) (right_iter it)).
      { unfold iter_next. destruct HL as [->|[-> _]]; auto. }
      rewrite NX, HR. destruct gs as [|g gs]; cbn [map flat_map].
      + eexists; split; [reflexivity|]. exists [], [].
        refine (conj _ (conj _ (conj _ (conj _ (conj _ (conj _ _)))))); auto.
      + destruct (GG g (or_introl eq_refl)) as (Q1 & Q2 & Q3). cbn [map] in DS.
        apply distinct_cons in DS as [DN DS].
        destruct g as [y [|z zs]]; cbn [fst snd gitems app map] in *.
        * simpl. rewrite Q1. eexists; split; [reflexivity|]. exists [], gs. simpl.
          refine (conj _ (conj _ (conj _ (conj _ (conj _ (conj _ _)))))); auto.
          { intros g Hg. apply GG. right; auto. }
          split; [intros ? []|]. intros g Hg. apply DN. apply in_map, in_map. auto.
        * simpl. rewrite Q1. cbn [map GroupProofs.pkey].
          assert (IZ : incl (z :: zs) A).
          { intros x Hx. apply (Permutation_in _ Q2) in Hx. apply filter_In in Hx; tauto. }
          erewrite (get_left_id E OK) by (eauto; apply IZ; left; auto). simpl.
          rewrite <- (Q3 z (or_introl eq_refl)).
          eexists; split; [reflexivity|]. exists zs, gs. simpl.
          refine (conj _ (conj _ (conj _ (conj _ (conj _ (conj _ _)))))); auto.
          { intros x Hx. apply IZ; right; auto. }
          { intros g Hg. apply GG. right; auto. }
          split.
          { intros x Hx. rewrite (Q3 x (or_intror Hx)), (Q3 z (or_introl eq_refl)). auto. }
          { intros g Hg. rewrite (Q3 z (or_introl eq_refl)). apply DN. apply in_map, in_map. auto. }
    - destruct HL as [HL|[_ HL]]; [|discriminate].
      exists (Iter (right_iter it) (Some (map (pkey s) zs))). split.
      + unfold iter_next. rewrite HL. cbn [map GroupProofs.pkey].
        erewrite (get_left_id E OK) by (eauto; apply I; left; auto). cbn [GroupProofs.slotL snd l_hash l_rid l_value].
        destruct (rid_right E OK _ _ _ _ _ _ _ z H RZ) as (y & G & Q); [apply I; left; auto|].
        rewrite G. simpl. rewrite Q. auto.
      + exists zs, gs. simpl. refine (conj _ (conj _ (conj _ (conj _ (conj _ (conj _ _)))))); auto.
        { intros x Hx; apply I; right; auto. }
        destruct last as [x|]; [|discriminate]. destruct LS as [L1 L2]. split.
        * intros z' Hz. rewrite (L1 z (or_introl eq_refl)). apply L1. right; auto.
        * intros g Hg. rewrite (L1 z (or_introl eq_refl)). auto.
  Qed.
  (* the item before position n *)
  Definition yielded_last {T} (n : nat) (l : list T) : option T :=
    match n with O => None | Datatypes.S k => nth_error l k end.
  Lemma to_come_nexts : forall s lc rc m A D B, Rep s lc rc m A D B -> ridsZ A ->
    forall n last it l, to_come A s last it l ->
    exists it', nexts (iter_next E m) n it = Done (firstn n (map Some l) ++ repeat None (n - length l), it') /\
      exists last', to_come A s last' it' (skipn n l) /\
        ((n <= length l)%nat -> last' = match n with O => last | Datatypes.S k => nth_error l k end).
  Proof.
    intros s lc rc m A D B H RZ. induction n as [|n IH]; intros last it l HV.
    - exists it. split; auto. exists last. auto.
    - assert (Q := to_come_step _ _ _ _ _ _ _ _ _ _ H RZ HV). destruct l as [|a t].
      + destruct Q as (it1 & E1 & V1). destruct (IH _ _ _ V1) as (it2 & E2 & last' & V2 & _).
        exists it2. cbn [nexts]. rewrite E1, E2, !skipn_nil in *. split.
        * destruct n; auto.
        * exists last'. split; auto. cbn [length]. lia.
      + destruct Q as (it1 & E1 & V1). destruct (IH _ _ _ V1) as (it2 & E2 & last' & V2 & EL').
        exists it2. cbn [nexts]. rewrite E1, E2. split; [auto|]. exists last'. cbn [skipn]. split; auto.
        cbn [length]. intros LE. rewrite EL' by lia. destruct n; auto.
  Qed.

  Lemma to_come_rest : forall s lc rc m A D B last it l, Rep s lc rc m A D B -> ridsZ A ->
    to_come A s last it l -> iter_rest E m it = Done l.
  Proof.
    intros s lc rc m A D B last it l H RZ HV. unfold iter_rest.
    assert (BD : (length l <= iter_bound it)%nat).
    { destruct HV as (zs & gs & _ & HG & HL & HR & -> & _). unfold iter_bound. rewrite HR.
      rewrite app_length, map_length. apply Nat.add_le_mono.
      - destruct HL as [->|[-> ->]]; simpl; auto. rewrite map_length. auto.
      - clear HL HR. induction gs as [|g gs IH]; auto. cbn [map flat_map fold_right].
        rewrite app_length. apply Nat.add_le_mono.
        + destruct (HG g (or_introl eq_refl)) as (Q1 & _ & _). cbn [snd].
          unfold gitems. apply (f_equal (@length _)) in Q1. unfold hs_elems in Q1.
          rewrite !map_length in Q1. unfold t_len. cbn [snd GroupProofs.slotR r_pairs].
          destruct (snd g); simpl in *; [lia|]. rewrite map_length. lia.
        + apply IH. intros g' Hg. apply HG; right; auto. }
    revert BD. generalize (iter_bound it) as fuel. intros fuel. revert last it l HV.
    induction fuel as [|fuel IH]; intros last it l HV LE; assert (Q := to_come_step _ _ _ _ _ _ _ _ _ _ H RZ HV).
    - destruct l; [|simpl in LE; lia]. destruct Q as (it' & Q & _). simpl. rewrite Q. auto.
    - destruct l as [|a l]; destruct Q as (it' & Q & V2); cbn [collect]; rewrite Q; auto.
      rewrite (IH _ _ _ V2); auto. simpl in LE. lia.
  Qed.

  (* What a clone of iter() (and len(), which counts a clone) leaves out: the items still to
     come that have the right item of the item yielded last, and no others. *)
  Theorem C55_clone_loses_partial : forall room m, reachable E room m ->
    exists rs ps l, holds E m rs ps /\ Permutation l (all_items_of E rs ps) /\
    forall n, exists it,
      nexts (iter_next E m) n (iter m) = Done (firstn n (map Some l) ++ repeat None (n - length l), it) /\
      iter_rest E m it = Done (skipn n l) /\
      let of_clone := match yielded_last n l with
                      | Some x => filter (fun p => negb (eqR E (snd x) (snd p))) (skipn n l)
                      | None => skipn n l
                      end in
      iter_rest E m (iter_clone it) = Done of_clone /\ iter_len E m it = Done (length of_clone).
  Proof.
    intros room m H. apply (reachable_repr E OK) in H as (s & lc & rc & G & H & B1 & B2).
    apply (GroupProps.view E OK) in H as (rs & ps & V & _ & _ & HH).
    destruct (come_iter E OK _ _ _ _ _ HH) as (l0 & P0 & C0).
    assert (CL := tame_all_clean E OK _ _ _ _ _ _ HH).
    assert (LK := tame_all_linked E OK _ _ _ _ _ _ HH).
    destruct HH as (A & D & B & H & EG & _).
    assert (RZ := linked_rids E OK _ _ _ _ _ _ _ H LK).
    assert (CZ := clean_cleans E OK _ _ _ _ _ _ _ H CL).
    destruct (order_r E _ _ _ _ _ _ _ H) as (Y & P & Q).
    destruct (groups_exist E _ _ _ _ _ _ _ H CZ Y) as (gs & GY & GG).
    { intros z Hz. eapply Permutation_in; [symmetry; eauto|auto]. }
    assert (HV : to_come A s None (iter m) (flat_map gitems gs)).
    { exists [], gs. split; [intros z []|]. split; auto. split; auto.
      split; [unfold iter; simpl; rewrite GY; auto|]. split; auto. split; auto. rewrite GY.
      eapply distinct_perm; [exact ER|apply Permutation_map; exact P|apply (rep_eqr _ _ _ _ _ _ _ _ H)]. }
    assert (L0 : l0 = flat_map gitems gs).
    { destruct (C0 (Nat.max (length l0) (length (flat_map gitems gs)))) as (it & N1 & _).
      destruct (to_come_nexts _ _ _ _ _ _ _ H RZ (Nat.max (length l0) (length (flat_map gitems gs))) _ _ _ HV) as (it' & N2 & _).
      rewrite N1 in N2. inversion N2 as [[X1 X2]]. clear N1 N2 X2 C0 HV.
      rewrite !firstn_all2 in X1 by (rewrite map_length; lia).
      revert X1. generalize (flat_map (@gitems L R) gs). clear. intros l1.
      generalize (Nat.max (length l0) (length l1)) as n. revert l1.
      intros l1 n X. revert l1 X. 
      assert (K : forall (a b : list (option L * R)) i j, map Some a ++ repeat None i = map Some b ++ repeat None j -> a = b).
      { induction a as [|x a IH]; intros [|y b] i j Z; auto.
        - destruct i; simpl in Z; discriminate.
        - destruct j; simpl in Z; discriminate.
        - simpl in Z. inversion Z. f_equal. eapply IH; eauto. }
      intros l1 X. eapply K; eauto. }
    exists rs, ps, l0. split; [exact V|]. split.
    { rewrite P0. unfold s_items, all_items_of. rewrite lonely_unpaired. auto. }
    intros n. destruct (C0 n) as (it & N1 & N2 & _ & k & N3 & _). exists it. split; auto. split; auto.
    cut (exists c, iter_rest E m (iter_clone it) = Done c /\
      c = match yielded_last n l0 with
          | Some x => filter (fun p => negb (eqR E (snd x) (snd p))) (skipn n l0)
          | None => skipn n l0
          end).
    { intros (c & C1 & ->). cbv zeta. split; auto. unfold iter_len. rewrite C1. auto. }
    destruct (Nat.le_gt_cases n (length l0)) as [LE|GT].
    2:{ exists []. rewrite (skipn_all2 l0) in * by lia. rewrite skipn_nil in N3. split; auto.
        destruct (yielded_last n l0); auto. }
    destruct (to_come_nexts _ _ _ _ _ _ _ H RZ n _ _ _ HV) as (it2 & M1 & last & VI & EL').
    rewrite <- L0 in *. rewrite N1 in M1. inversion M1; subst it2. specialize (EL' LE).
    destruct VI as (zs & gs' & I1 & I2 & I3 & I4 & I5 & I6 & I7).
    assert (VC : to_come A s None (iter_clone it) (flat_map gitems gs')).
    { exists [], gs'. split; [intros z []|]. auto 8. }
    exists (flat_map gitems gs'). split.
    { eapply to_come_rest; eauto. }
    assert (last = yielded_last n l0) as <- by (rewrite EL'; destruct n; auto).
    rewrite I5. destruct last as [x|].
    - destruct I7 as [I7 I8]. rewrite filter_app, filter_all_false.
      + cbn [app]. symmetry. apply filter_all_true. intros p Hp. apply in_flat_map in Hp as (g & Hg & Hp).
        assert (snd p = y_r (fst g)) as ->; [|rewrite (I8 g Hg); auto].
        destruct (I2 g Hg) as (_ & _ & Q3). unfold gitems in Hp. destruct (snd g) as [|z1 zs1].
        * destruct Hp as [<-|[]]. auto.
        * apply in_map_iff in Hp as (z & <- & Hz). apply Q3; auto.
      + intros p Hp. apply in_map_iff in Hp as (z & <- & Hz). cbn [snd]. rewrite (I7 z Hz), (equiv_refl _ ER). auto.
    - rewrite I7. auto.
  Qed.

  (* ---- C56: what retain_paired leaves of the right items it dropped left items of ---- *)
  Lemma remove_pairs_dead : forall ps m h i, In (h, i) ps ->
    (forall x, In x (slots (left_set m)) -> l_id (snd x) <> i) ->
    exists m', remove_pairs E ps m = Panic m' /\ right_set m' = right_set m.
  Proof.
    induction ps as [|[h' i'] ps IH]; intros m h i Hp N; [destruct Hp|].
    cbn [remove_pairs]. unfold left_remove_entry. mrun.
    destruct (t_remove_entry (lo E) (left_set m) h' (left_with_left_id i')) as [[e t]|] eqn:T; [|eauto].
    apply remove_entry_at in T as (j & h2 & F & NE & ->). cbn iota beta.
    destruct (t_find_some _ _ _ _ _ F) as (h3 & e3 & NE3 & PE). rewrite NE in NE3. inversion NE3; subst h3 e3.
    destruct Hp as [Hp|Hp].
    - inversion Hp; subst h' i'. exfalso. apply (N (h2, e)); [eapply nth_error_In; eauto|].
      unfold left_with_left_id in PE. apply N.eqb_eq. exact PE.
    - destruct (IH (set_left (t_remove_at (lo E) (left_set m) j) m) h i Hp) as (m' & Q & R1).
      + intros x Hx. apply N. cbn [left_set set_left] in Hx. eapply remove_nth_In; exact Hx.
      + rewrite Q. exists m'. split; auto.
  Qed.

  (* W: the dropped left items, nz: the others *)
  Lemma dropped_seen : forall s lc rc m m' A B yz nz W, Rep s lc rc m A [] B -> Rep s lc rc m' nz W B ->
    Permutation W yz -> Permutation A (yz ++ nz) -> right_set m' = right_set m ->
      (forall r, is_right_paired E m' r = is_right_paired E m r) /\
      unpaired_rest (iter_unpaired m') = unpaired_rest (iter_unpaired m) /\
      (forall l r q, In (l, r) (map z_pair yz) -> q =R r ->
         (exists it, get_left_iter E m' q = Some it /\ pair_rest E m' it = Panicked) /\
         (exists m'', remove_right E q m' = Panic m'' /\ contains_right E m'' q = false) /\
         (exists m'', insert_right E q m' = Panic m'' /\ contains_right E m'' q = false) /\
         (forall a, are_paired E m' a q = true -> exists m'', remove E a q m' = Panic m'') /\
         ((2 <= length (lefts_of E (map z_pair yz) q))%nat -> iter_rest E m' (iter m') = Panicked)).
  Proof.
    intros s lc rc m m' A B yz nz W H HN PW PA RS.
    assert (HB := rep_hb _ _ _ _ _ _ _ _ H). assert (HB' := rep_hb _ _ _ _ _ _ _ _ HN).
    split; [|split].
    - intros r. unfold is_right_paired, find_right. rewrite RS, HB, HB'. auto.
    - unfold iter_unpaired. rewrite RS. auto.
    - intros l r q HI QR. apply in_map_iff in HI as (z & ZP & Hz). inversion ZP; subst l r. clear ZP.
      assert (HzA : In z A) by (eapply Permutation_in; [symmetry; exact PA|apply in_app_iff; auto]).
      destruct (rep_link _ _ _ _ _ _ _ _ H z HzA) as (y & Hy & GI & YR). rewrite <- YR in QR.
      destruct (pick_r _ _ _ _ _ _ _ y q HN Hy QR) as (B' & PB & HN2 & NB).
      assert (HzD : In z W) by (eapply Permutation_in; [symmetry; exact PW|auto]).
      destruct (tab_elems E _ _ _ _ _ _ _ y HN Hy) as (zs & QE & PZ).
      assert (Hzs : In z zs).
      { eapply Permutation_in; [symmetry; exact PZ|]. apply filter_In. split; [apply in_app_iff; auto|].
        unfold in_group. rewrite GI. apply N.eqb_refl. }
      assert (FR := find_right_some E OK _ _ _ _ _ _ _ _ _ HN2 QR NB).
      assert (RR : exists m'', remove_right E q m' = Panic m'' /\ contains_right E m'' q = false).
      { unfold remove_right, right_remove_entry. mrun. rewrite HB', (hashR_ok _ OK s _ _ QR).
        destruct (t_remove_entry_unique _ LO (right_set m') (hashR E s (y_r y))
          (equivalent_key_right (eqR E) q) (snd (slotR s y)) (map (slotR s) B')) as (rt & -> & PR).
        { apply (rep_r _ _ _ _ _ _ _ _ HN2). }
        { apply (equiv_sym _ (eqR_equiv E OK)), QR. }
        { intros w Hw. eapply (key_r_other E OK); eauto. }
        cbn iota beta. cbn [snd GroupProofs.slotR r_pairs]. rewrite QE.
        destruct (remove_pairs_dead (map (pkey s) zs) (set_right rt m') (hashL E s (z_l z)) (z_id z)) as (m'' & Q1 & Q2).
        { apply (in_map (pkey s)) in Hzs. exact Hzs. }
        { intros w Hw EI. cbn [left_set set_right] in Hw.
          eapply Permutation_in in Hw; [|apply (rep_l _ _ _ _ _ _ _ _ HN)].
          apply in_map_iff in Hw as (w' & <- & Hw). cbn in EI.
          assert (ND := rep_lids _ _ _ _ _ _ _ _ HN).
          apply in_split in HzD as (D1 & D2 & ED). rewrite ED, app_assoc, map_app in ND. cbn [map] in ND.
          apply NoDup_remove in ND as [_ ND]. apply ND. rewrite <- EI. rewrite <- map_app. apply in_map.
          rewrite !in_app_iff; auto. }
        rewrite Q1. exists m''. split; auto. unfold contains_right, find_right. rewrite Q2. cbn [right_set set_right].
        unfold t_get. rewrite t_find_absent; auto. intros w Hw.
        eapply Permutation_in in Hw; [|exact PR]. eapply (key_r_other E OK); eauto. }
      refine (conj _ (conj RR (conj _ (conj _ _)))).
      + unfold get_left_iter, get_left_iter_q. fold (find_right E m' q). rewrite FR. cbn [option_map snd GroupProofs.slotR r_pairs].
        eexists. split; [reflexivity|]. rewrite QE.
        destruct (pair_rest E m' (map (pkey s) zs)) as [ls|] eqn:PR; auto. exfalso.
        eapply (pair_rest_dead E) in PR; [|exact OK|exact HN|].
        * apply PR in Hzs. assert (ND := rep_lids _ _ _ _ _ _ _ _ HN).
          apply in_split in HzD as (D1 & D2 & ED). rewrite ED, app_assoc, map_app in ND. cbn [map] in ND.
          apply NoDup_remove in ND as [_ ND]. apply ND. rewrite <- map_app. apply in_map. rewrite !in_app_iff; auto.
        * intros w Hw. apply (Permutation_in _ PZ) in Hw. apply filter_In in Hw. tauto.
      + destruct RR as (m'' & Q1 & Q2). exists m''. split; auto. unfold insert_right. mrun. rewrite Q1. auto.
      + intros a AP. destruct RR as (m'' & Q1 & Q2). exists m''. unfold remove. mrun. rewrite AP. auto.
      + intros LN. unfold iter_rest.
        destruct (collect (iter_next E m') (iter_bound (iter m')) (iter m')) as [ls|] eqn:C; auto.
        apply iter_done in C as [_ I2]. cbn [iter right_iter] in I2. exfalso.
        assert (LD : (2 <= length (filter (in_group (y_id y)) (W)))%nat).
        { assert (K : length (filter (in_group (y_id y)) (W)) = length (lefts_of E (map z_pair yz) q)); [|lia].
          unfold lefts_of. rewrite map_length.
          assert (PF : forall k, Permutation (filter (in_group k) (W)) (filter (in_group k) yz)).
          { intros k. apply filter_perm. exact PW. }
          rewrite (Permutation_length (PF (y_id y))).
          assert (K2 : forall w, In w yz -> in_group (y_id y) w = eqR E q (snd (z_pair w))).
          { intros w Hw. symmetry. apply (is_r_in_group E OK _ _ _ _ _ _ _ y q w H Hy QR).
            eapply Permutation_in; [symmetry; exact PA|apply in_app_iff; auto]. }
          clear - K2. induction yz as [|w yz IH]; auto. cbn [map filter]. rewrite <- (K2 w) by (left; auto).
          destruct (in_group (y_id y) w); cbn [length]; rewrite IH; auto; intros v Hv; apply K2; right; auto. }
        (* one of the two dropped ones is not the first of its set *)
        assert (exists d, In d (W) /\ In d (tl zs)) as (d & Hd & Htl).
        { destruct zs as [|z0 zs]; [destruct Hzs|]. cbn [tl]. rewrite filter_app in PZ.
          assert (ND : NoDup (map z_id (filter (in_group (y_id y)) nz ++ filter (in_group (y_id y)) (W)))).
          { rewrite <- filter_app. apply NoDup_map_filter. apply (rep_lids _ _ _ _ _ _ _ _ HN). }
          destruct (filter (in_group (y_id y)) (W)) as [|d1 [|d2 ds]] eqn:FD; cbn [length] in LD; try lia.
          assert (I1 : In d1 (z0 :: zs)) by (eapply Permutation_in; [symmetry; exact PZ|apply in_app_iff; right; left; auto]).
          assert (I3 : In d2 (z0 :: zs)) by (eapply Permutation_in; [symmetry; exact PZ|apply in_app_iff; right; right; left; auto]).
          assert (J1 : In d1 (W)) by (eapply filter_In; rewrite FD; left; auto).
          assert (J2 : In d2 (W)) by (eapply filter_In; rewrite FD; right; left; auto).
          destruct I1 as [->|I1]; [|eauto]. destruct I3 as [->|I3]; [|eauto]. exfalso.
          rewrite map_app in ND. apply NoDup_app_r in ND. cbn [map] in ND. inversion ND; subst. apply H2. left; auto. }
        assert (K : good_key m' (pkey s d)).
        { apply (I2 (slotR s y)).
          - eapply Permutation_in; [symmetry; apply (rep_r _ _ _ _ _ _ _ _ HN)|apply in_map; auto].
          - cbn [snd GroupProofs.slotR r_pairs]. rewrite QE, map_tl. apply in_map. auto. }
        destruct K as (x0 & r0 & K1 & _). unfold GroupProofs.pkey in K1. cbn [fst snd] in K1.
        rewrite (get_left_id_dead E _ _ _ _ _ _ _ d _ HN Hd) in K1. discriminate.
  Qed.

  Theorem C56_dropped_partial : forall {X} (f : X -> L * R -> X * verdict) x room m, reachable E room m ->
    exists rs ps, holds E m rs ps /\
    forall x' yes others, s_filter f x ps = (x', yes, others, false) ->
    exists m', retain_paired E f (m, x) = Ret (m', x') tt /\
      (* the right side as if nothing was dropped *)
      (forall r, is_right_paired E m' r = is_right_paired E m r) /\
      unpaired_rest (iter_unpaired m') = unpaired_rest (iter_unpaired m) /\
      (* panics *)
      (forall l r q, In (l, r) yes -> q =R r ->
         (exists it, get_left_iter E m' q = Some it /\ pair_rest E m' it = Panicked) /\
         (exists m'', remove_right E q m' = Panic m'' /\ contains_right E m'' q = false) /\
         (exists m'', insert_right E q m' = Panic m'' /\ contains_right E m'' q = false) /\
         (forall a, are_paired E m' a q = true -> exists m'', remove E a q m' = Panic m'') /\
         ((2 <= length (lefts_of E yes q))%nat -> iter_rest E m' (iter m') = Panicked)).
  Proof.
    intros X f x room m H. apply (reachable_repr E OK) in H as (s & lc & rc & G & H & B1 & B2).
    apply (GroupProps.view E OK) in H as (rs & ps & V & _ & _ & HH).
    assert (LK := tame_all_linked E OK _ _ _ _ _ _ HH).
    destruct HH as (A & D & B & H & EG & [T1 T2] & C1 & C2). rewrite (T1 eq_refl) in *. clear D T1.
    assert (RZ := linked_rids E OK _ _ _ _ _ _ _ H LK).
    destruct (retain_paired_z E OK _ _ _ _ _ _ _ f x H RZ) as (Y & P & Q & W).
    destruct V as [V1 V2]. rewrite V2 in Q. inversion Q as [EP]. clear Q.
    exists rs, (map z_pair Y). split; [split; auto; congruence|]. intros x' yes others SF.
    rewrite s_filter_map in SF.
    destruct (s_filter (fun x u => f x (z_pair u)) x Y) as [[[x1 yz] nz] pn] eqn:SZ.
    inversion SF; subst x1 yes others pn. clear SF. destruct W as (m' & PA & RT & HN & RS & _).
    exists m'. split; auto. rewrite app_nil_r in HN.
    apply (dropped_seen _ _ _ _ _ _ _ _ _ _ H HN); auto. symmetry. apply Permutation_rev.
  Qed.
End Defects.

(* ---- concrete cases ---- *)
Ltac run_all := repeat match goal with |- _ /\ _ => split; [vm_compute; reflexivity|] end; vm_compute; reflexivity.
Definition after {X} (r : res (gmap item item N) X) : gmap item item N :=
  match r with Ret m _ => m | Panic m => m end.
Definition panics {X} (r : res (gmap item item N) X) : bool :=
  match r with Ret _ _ => false | Panic _ => true end.

(* the pair (1, 10) of gmc inserted again: 1 still answers 10, 10 has forgotten 1 *)
Definition again := after (insert env_collide (it' 1) (it' 10) gmc).
Example C48_reinsert_case : reachable env_collide 0 gmc /\ are_paired env_collide gmc (it' 1) (it' 10) = true /\
  get_right env_collide again (it 1) = Some (it 10) /\ are_paired env_collide again (it 1) (it 10) = false /\
  (exists i, get_left_iter env_collide again (it 10) = Some i /\
             pair_rest env_collide again i = Done [it 7; it 8]) /\
  panics (remove_left env_collide (it 1) again) = true /\
  panics (insert env_collide (it 1) (it 99) again) = true /\
  res_value (pair env_collide (it 1) (it 10) again) = Some true /\
  are_paired env_collide (after (insert env_collide (it 1) (it 30) again)) (it 1) (it 30) = true.
Proof.
  split; [apply gm1_reachable; [simpl; auto|reflexivity]|].
  do 3 (split; [vm_compute; reflexivity|]).
  split; [eexists; split; vm_compute; reflexivity|].
  run_all.
Qed.

(* 10 swapped for 99 in gmc (all hashes the same: still 10) and in gms (lost) *)
Definition swc := after (swap_right env_collide (it' 10) (it 99) gmc).
Definition sws := after (swap_right env_spread (it' 10) (it 99) gms).
Example C50_moved_case :
  reachable env_collide 1 gmc /\ reachable env_spread 1 gms /\
  is_right_paired env_collide gmc (it' 10) = true /\ contains_right env_collide gmc (it 99) = false /\
  is_right_paired env_spread gms (it' 10) = true /\ contains_right env_spread gms (it 99) = false /\
  get_right env_collide swc (it 1) = Some (it 10) /\ get_right env_spread sws (it 1) = None /\
  are_paired env_collide swc (it 1) (it 99) = true /\ are_paired env_spread sws (it 1) (it 99) = true /\
  length (lefts_of env_spread [(it 7, it 10); (it 5, it 30); (it 1, it 10)] (it 10)) = 2%nat /\
  paired_rest env_spread sws (iter_paired sws) = Panicked /\
  iter_rest env_spread sws (iter sws) = Panicked /\
  panics (pair env_spread (it 1) (it 30) sws) = true /\
  panics (insert env_spread (it 1) (it 30) sws) = true /\
  paired_rest env_collide swc (iter_paired swc) = paired_rest env_collide gmc (iter_paired gmc).
Proof.
  do 2 (split; [apply gm1_reachable; [simpl; auto|reflexivity]|]).
  run_all.
Qed.

Definition swr := after (swap_right_remove env_collide (it' 10) (it 99) gmc).
Example C51_moved_case : reachable env_collide 1 gmc /\
  is_right_paired env_collide gmc (it' 10) = true /\ contains_right env_collide gmc (it 99) = false /\
  get_right env_collide swr (it 1) = None /\ are_paired env_collide swr (it 1) (it 99) = true /\
  panics (pair env_collide (it 1) (it 30) swr) = true /\
  panics (insert env_collide (it 1) (it 30) swr) = true /\
  res_value (remove_left env_collide (it' 1) swr) = Some (Some (it 1)) /\
  paired_rest env_collide swr (iter_paired swr) = Panicked /\
  iter_rest env_collide swr (iter swr) = Panicked.
Proof.
  split; [apply gm1_reachable; [simpl; auto|reflexivity]|].
  run_all.
Qed.

(* the clone after (7, 10) leaves out (1, 10) and (8, 10) *)
Example C55_clone_loses_case : exists i l,
  nexts (iter_next env_collide gmc) 2 (iter gmc) = Done ([Some (None, it 40); Some (Some (it 7), it 10)], i) /\
  iter_rest env_collide gmc i = Done l /\
  l = (Some (it 1), it 10) :: (Some (it 8), it 10) :: skipn 2 l /\
  iter_rest env_collide gmc (iter_clone i) = Done (skipn 2 l) /\ iter_len env_collide gmc i = Done 5%nat.
Proof. do 2 eexists. run_all. Qed.

(* the pairs of 30 dropped *)
Definition no30 := match retain_paired env_collide f30 (gmc, 0) with Ret (m, _) _ => m | Panic (m, _) => m end.
Example C56_dropped_case : reachable env_collide 1 gmc /\
  s_filter f30 0 [(it 7, it 10); (it 5, it 30); (it 1, it 10); (it 2, it 30); (it 6, it 30); (it 8, it 10)] =
    (6, [(it 5, it 30); (it 2, it 30); (it 6, it 30)], [(it 7, it 10); (it 1, it 10); (it 8, it 10)], false) /\
  is_right_paired env_collide no30 (it' 30) = true /\
  unpaired_rest (iter_unpaired no30) = Done [it 40; it 70; it 90] /\
  panics (remove_right env_collide (it' 30) no30) = true /\
  panics (insert_right env_collide (it' 30) no30) = true /\
  iter_rest env_collide no30 (iter no30) = Panicked /\
  contains_right env_collide (after (remove_right env_collide (it' 30) no30)) (it 30) = false.
Proof.
  split; [apply gm1_reachable; [simpl; auto|reflexivity]|].
  run_all.
Qed.

Print Assumptions C48_reinsert_partial.
Print Assumptions C50_moved_partial.
Print Assumptions C51_moved_partial.
Print Assumptions C55_clone_loses_partial.
Print Assumptions C56_dropped_partial.
