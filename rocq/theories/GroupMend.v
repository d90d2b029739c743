(* GroupMap: what can be seen of a map wrecked by a panic (GroupWreck.v), and how it is mended. *)
From Coq Require Import List NArith Lia Bool Permutation PeanoNat.
From Verif Require Import Closures Prelude RawTable GroupMap ListFacts TableFacts GroupSpec GroupHistory
  IterFacts GroupProofs GroupProofs2 GroupProofs3 GroupProofs5 GroupHistoryProofs GroupProps Capacity GroupCapacity
  Faults FaultTables GroupFault GroupFaultProofs GroupWreck.
Import ListNotations.
Open Scope N_scope.

Section Mend.
  Context {L R S : Type} (E : env L R S) (OK : lawful E).
  Notation map' := (gmap L R S).
  Notation zl := (zleft L R).
  Notation zr := (zright R).
  Notation contents := (contents L R).
  Notation slotL := (slotL E).
  Notation slotR := (slotR E).
  Notation pkey := (pkey E).
  Notation Core := (Core E).
  Notation Rep := (Rep E).
  Notation Repr := (Repr E).
  Notation Wreck := (Wreck E).
  Notation WRepr := (WRepr E).
  Notation eqkl l := (equivalent_key_left (eqL E) l).
  Notation eqkr r := (equivalent_key_right (eqR E) r).
  Let EL := eqL_equiv _ OK.
  Let ER := eqR_equiv _ OK.
  Let LO := lo_ok _ OK.

  (* what is seen of a map that holds G, and besides the left items xs, in no group *)
  Record seen_as (m : map') (G : contents) (xs : list L) : Prop := {
    se_left : exists Q, left_rest (iter_left m) = Done Q /\ Permutation Q (map fst (g_pairs G) ++ xs);
    se_right : exists Q, right_rest (iter_right m) = Done Q /\ Permutation Q (g_rights G);
    se_len_left : len_left m = (length (g_pairs G) + length xs)%nat;
    se_len_right : len_right m = length (g_rights G);
    se_contains_left : forall l, contains_left E m l = s_contains_left (eqL E) G l || existsb (eqL E l) xs;
    se_contains_right : forall r, contains_right E m r = s_contains_right (eqR E) G r;
    se_are_paired : forall l r, are_paired E m l r = s_are_paired (eqL E) (eqR E) G l r;
    se_distinct : distinct (eqL E) (map fst (g_pairs G) ++ xs);
    se_grouping : grouping (eqL E) (eqR E) G
  }.
  (* the stranded items can be told from the others: they are paired with no right item *)
  Lemma seen_strays : forall m G xs l, seen_as m G xs -> In l (map fst (g_pairs G) ++ xs) ->
    (In l xs <-> forall r, In r (g_rights G) -> are_paired E m l r = false).
  Proof.
    intros m G xs l [] I. split.
    - intros X r Hr. rewrite se_are_paired0. unfold s_are_paired. apply existsb_false. intros p Hp.
      apply andb_false_iff. left. unfold is_l. apply distinct_app in se_distinct0 as (_ & _ & DS).
      rewrite (eqb_sym _ EL). apply DS; auto. apply in_map; auto.
    - intros N. apply in_app_or in I as [I|I]; auto. exfalso. apply in_map_iff in I as (p & <- & Hp).
      destruct se_grouping0 as (_ & _ & G3). specialize (N (snd p) (G3 p Hp)).
      rewrite se_are_paired0 in N. unfold s_are_paired in N. rewrite existsb_false in N. specialize (N p Hp).
      unfold is_l, is_r in N. rewrite (equiv_refl _ EL), (equiv_refl _ ER) in N. discriminate.
  Qed.

  (* without the stranded items *)
  Definition bare (s : S) (m : map') (A : list zl) : map' := set_left (Tbl (map (slotL s) A) 0) m.
  Lemma wreck_bare : forall s lc rc m A X D B, Wreck s lc rc m A X D B -> Rep s lc rc (bare s m A) A D B.
  Proof. intros s lc rc m A X D B []. apply core_rep; auto. Qed.
  Lemma wreck_find : forall s lc rc m A X D B q, Wreck s lc rc m A X D B ->
    (exists z A', Permutation A (z :: A') /\ eqL E q (z_l z) = true /\ (forall x, In x A' -> eqL E q (z_l x) = false) /\
       (forall x, In x X -> eqL E q (z_l x) = false) /\ find_left E m q = Some (snd (slotL s z))) \/
    (exists z X', Permutation X (z :: X') /\ eqL E q (z_l z) = true /\ (forall x, In x A -> eqL E q (z_l x) = false) /\
       find_left E m q = Some (snd (slotL s z))) \/
    ((forall x, In x (A ++ X) -> eqL E q (z_l x) = false) /\ find_left E m q = None).
  Proof.
    intros s lc rc m A X D B q []. subst s.
    destruct (split_key (eqL E) EL z_l (A ++ X) q w_eql) as [(z & W & P & Q & N)|N].
    - assert (F : find_left E m q = Some (snd (slotL (hash_builder m) z))).
      { unfold find_left. rewrite (hashL_ok _ OK _ _ _ Q). eapply t_get_unique; [exact LO| |apply (equiv_sym _ EL), Q|].
        - rewrite w_l. apply (Permutation_map (slotL (hash_builder m))) in P. exact P.
        - intros x Hx. eapply (key_l_other E OK); eauto. }
      assert (I : In z (A ++ X)) by (eapply Permutation_in; [symmetry; exact P|left; auto]).
      apply in_app_or in I as [I|I]; apply perm_in_cons in I as [T PT].
      + left. exists z, T. rewrite PT in P. simpl in P. apply Permutation_cons_inv in P.
        assert (N' : forall x, In x (T ++ X) -> eqL E q (z_l x) = false).
        { intros x Hx. apply N. eapply Permutation_in; [exact P|auto]. }
        repeat split; auto; intros x Hx; apply N', in_or_app; auto.
      + right. left. exists z, T.
        assert (P' : Permutation (A ++ T) W).
        { apply Permutation_cons_inv with (a := z). rewrite <- P, PT. apply Permutation_middle. }
        repeat split; auto. intros x Hx. apply N. eapply Permutation_in; [exact P'|]. apply in_or_app; auto.
    - right. right. split; auto. unfold find_left. apply t_get_absent. intros x Hx.
      eapply Permutation_in in Hx; [|exact w_l]. eapply (key_l_other E OK); eauto.
  Qed.
  Lemma repr_of_rep : forall s lc rc m A D B, Rep s lc rc m A D B ->
    exists lc' rc', Repr (false, false) s lc' rc' (GM s lc' rc' (left_set m) (right_set m)) (GroupProofs.view A B).
  Proof.
    intros s lc rc m A D B H. exists lc, rc. exists A, D, B. split; [|split; [auto|split; [split; discriminate|auto]]].
    apply core_rep; [eapply rep_core; eauto|auto|apply H|apply H].
  Qed.
  Lemma wreck_seen : forall s lc rc m A X D B, Wreck s lc rc m A X D B ->
    seen_as m (GroupProofs.view A B) (map z_l X).
  Proof.
    intros s lc rc m A X D B H. assert (HR := wreck_bare _ _ _ _ _ _ _ _ H).
    assert (HB := w_hb _ _ _ _ _ _ _ _ _ H).
    destruct (repr_of_rep _ _ _ _ _ _ _ HR) as (lc' & rc' & H1).
    assert (FR : forall r, find_right E (bare s m A) r = find_right E m r) by auto.
    constructor.
    - assert (P := w_l _ _ _ _ _ _ _ _ _ H). apply Permutation_map_inv in P as (Y & Q & P).
      exists (map z_l Y). split.
      + unfold iter_left, left_rest. rewrite Q.
        eapply collect_as; [apply (left_steps E s)|cbn; eauto 6|]. rewrite !map_length. auto.
      + simpl. rewrite map_map. change (fun x : zl => fst (z_l x, z_r x)) with (fun x : zl => z_l x).
        rewrite <- map_app. symmetry. apply Permutation_map; auto.
    - destruct (iter_right_ok E _ _ _ _ _ _ H1) as (Q & _ & I1 & _ & I2). exists Q. split; auto.
    - unfold len_left, t_len. rewrite (Permutation_length (w_l _ _ _ _ _ _ _ _ _ H)). simpl.
      rewrite !map_length, app_length. auto.
    - apply (len_right_ok E _ _ _ _ _ _ H1).
    - intros l. unfold contains_left.
      destruct (wreck_find _ _ _ _ _ _ _ _ l H) as [(z & A' & P & Q & N & NX & ->)|[(z & X' & P & Q & N & ->)|(N & ->)]]; simpl.
      + symmetry. apply orb_true_iff. left. unfold s_contains_left. apply existsb_exists. simpl.
        exists (z_pair z). split; [|exact Q]. apply in_map. eapply Permutation_in; [symmetry; exact P|left; auto].
      + symmetry. apply orb_true_iff. right. apply existsb_exists. exists (z_l z). split; auto.
        apply in_map. eapply Permutation_in; [symmetry; exact P|left; auto].
      + symmetry. apply orb_false_iff. split.
        * unfold s_contains_left. apply existsb_false. simpl. intros x Hx. apply in_map_iff in Hx as (z & <- & Hz).
          apply N, in_or_app; auto.
        * apply existsb_false. intros x Hx. apply in_map_iff in Hx as (z & <- & Hz). apply N, in_or_app; auto.
    - intros r. assert (Q := contains_right_ok E OK _ _ _ _ _ _ r H1). rewrite <- Q.
      unfold contains_right, find_right. simpl. rewrite HB. reflexivity.
    - intros l r. assert (Q := are_paired_ok E OK _ _ _ _ _ _ l r H1). rewrite <- Q. unfold are_paired.
      replace (find_right E (GM s lc' rc' (left_set (bare s m A)) (right_set (bare s m A))) r) with (find_right E m r)
        by (unfold find_right; simpl; rewrite HB; reflexivity).
      replace (find_left E (GM s lc' rc' (left_set (bare s m A)) (right_set (bare s m A))) l)
        with (find_left E (bare s m A) l) by (unfold find_left; simpl; rewrite HB; reflexivity).
      cbn [hash_builder].
      destruct (wreck_find _ _ _ _ _ _ _ _ l H) as [(z & A' & P & QL & N & NX & F)|[(z & X' & P & QL & N & F)|(N & F)]];
        rewrite F.
      + assert (HR' := rep_perm E OK _ _ _ _ _ _ _ _ _ P (Permutation_refl _) HR).
        rewrite (find_left_some E OK _ _ _ _ _ _ _ _ _ HR' QL N), HB. reflexivity.
      + rewrite (find_left_none E OK _ _ _ _ _ _ _ _ HR N).
        destruct (find_right E m r) as [f|] eqn:FF; auto.
        destruct (split_r E OK _ _ _ _ _ _ _ r HR) as [(y & B' & PB & H2 & QR & HQ & NR)|NR].
        * assert (FY := find_right_some E OK _ _ _ _ _ _ _ _ _ H2 QR NR). rewrite FR, FF in FY. injection FY as ->.
          cbn [r_id r_pairs l_id snd slotR GroupProofs.slotR GroupProofs.slotL]. apply andb_false_iff. right.
          apply (set_contains_false E OK).
          -- eapply (rep_hashed_tab E); [exact H2|left; auto].
          -- eapply (tab_contains_fresh E); [exact H2|left; auto|]. simpl.
             apply (w_ids _ _ _ _ _ _ _ _ _ H). eapply Permutation_in; [symmetry; exact P|left; auto].
        * rewrite <- FR, (find_right_none E OK _ _ _ _ _ _ _ _ HR NR) in FF. discriminate.
      + rewrite (find_left_none E OK _ _ _ _ _ _ _ _ HR); auto. intros x Hx. apply N, in_or_app; auto.
    - assert (DS := w_eql _ _ _ _ _ _ _ _ _ H). rewrite map_app in DS. simpl. rewrite map_map. exact DS.
    - apply (repr_grouping E _ _ _ _ _ _ H1).
  Qed.
  Lemma wrepr_seen : forall b s lc rc m G xs, WRepr b s lc rc m G xs -> seen_as m G xs.
  Proof. intros b s lc rc m G xs (A & X & D & B & H & -> & -> & _). eapply wreck_seen; eauto. Qed.
  Lemma planted_seen : forall b s lc rc m0 m G l r, Repr b s lc rc m0 G -> planted E l r m0 m -> seen_as m G [].
  Proof.
    intros b s lc rc m0 m G l r H PL. destruct (planted_repr E OK _ _ _ _ _ _ _ _ _ H PL) as [<- H1].
    apply (repr_wrepr E) in H1. apply wrepr_seen in H1. destruct H1. constructor; auto.
  Qed.

  (* ---- remove_left of a stranded item panics, but removes it ---- *)
  Lemma wreck_remove_left : forall b s lc rc m G x xs, WRepr b s lc rc m G (x :: xs) ->
    exists m', remove_left E x m = Panic m' /\ WRepr b s lc rc m' G xs.
  Proof.
    intros b s lc rc m G x xs (A & X & D & B & H & -> & Q & T & CL & CR).
    destruct X as [|z X]; [discriminate|]. injection Q as -> ->.
    assert (HR := wreck_bare _ _ _ _ _ _ _ _ H). destruct H. subst s.
    assert (P : Permutation (A ++ z :: X) (z :: A ++ X)) by (symmetry; apply Permutation_middle).
    assert (DL : distinct (eqL E) (map z_l (z :: A ++ X))).
    { eapply distinct_perm; [exact EL|apply Permutation_map; exact P|auto]. }
    cbn [map] in DL. apply distinct_cons in DL as [D1 D2].
    unfold remove_left, left_remove_entry. mrun.
    destruct (t_remove_entry_unique _ LO (left_set m) (hashL E (hash_builder m) (z_l z)) (eqkl (z_l z))
      (snd (slotL (hash_builder m) z)) (map (slotL (hash_builder m)) (A ++ X))) as (lt & -> & PL).
    { rewrite w_l. apply (Permutation_map (slotL (hash_builder m))) in P. exact P. }
    { apply (equiv_refl _ EL). }
    { intros y Hy. eapply (key_l_other E OK); [|exact Hy]. intros w Hw. apply D1, in_map; auto. }
    cbn [right_set set_left].
    rewrite (get_mut_absent E).
    2:{ intros y Hy. eapply Permutation_in in Hy; [|exact w_r]. apply in_map_iff in Hy as (w & <- & Hw).
        unfold right_with_left_pair. cbn. apply (set_contains_false E OK).
        - eapply (rep_hashed_tab E); [exact HR|auto].
        - eapply (tab_contains_fresh E); [exact HR|auto|]. simpl. apply w_ids. left; auto. }
    eexists. split; [reflexivity|]. exists A, X, D, B. split; [|split; [auto|split; [auto|split; [auto|auto]]]].
    constructor; auto. intros y Hy. apply w_ids. right; auto.
  Qed.
  Lemma wreck_mend : forall xs b s lc rc m G, WRepr b s lc rc m G xs ->
    exists m', run E m (map RemoveLeft xs) = (m', map (fun _ => OPanic) xs) /\ Repr b s lc rc m' G.
  Proof.
    induction xs as [|x xs IH]; intros b s lc rc m G H.
    - exists m. split; auto. apply (wrepr_repr E); auto.
    - destruct (wreck_remove_left _ _ _ _ _ _ _ _ H) as (m1 & Q & H1).
      destruct (IH _ _ _ _ _ _ H1) as (m2 & Q2 & H2). exists m2. split; auto.
      cbn [map run step]. rewrite Q. cbn [via]. rewrite Q2. reflexivity.
  Qed.

  (* ---- a planted id: the same call again does what it would have done ---- *)
  Lemma update_twice : forall {A} (f : A -> A) i l, (forall x, nth_error l i = Some x -> f (f x) = f x) ->
    update_nth i f (update_nth i f l) = update_nth i f l.
  Proof.
    induction i; intros [|x l] H; simpl; auto; f_equal; auto.
  Qed.
  Lemma set_insert_twice : forall i t p, set_hashed E i t ->
    set_insert E i (set_insert E i t p) p = set_insert E i t p.
  Proof.
    intros i t p H. unfold set_insert, hs_insert. destruct (t_find (lo E) t (hashP E i p) (pair_eqb p)) eqn:F1.
    - rewrite F1. auto.
    - destruct (t_find (lo E) (t_insert _ _ _ _ _) _ _) eqn:F2; auto.
      assert (X : pair_eqb p p = false); [|rewrite (proj2 (pair_eqb_eq p p) eq_refl) in X; discriminate].
      eapply t_find_none; [exact LO|exact F2|]. eapply Permutation_in; [symmetry; apply t_insert_perm; auto|left; auto].
  Qed.
  Lemma planted_again : forall b s lc rc m0 m G l r, Repr b s lc rc m0 G -> planted E l r m0 m ->
    exists j e e', t_get_mut E (right_set m0) (hashR E (hash_builder m0) r) (eqkr r) = Some (j, e) /\
      t_get_mut E (right_set m) (hashR E (hash_builder m) r) (eqkr r) = Some (j, e') /\ r_id e' = r_id e /\
      right_assign j (pairs_insert E (hashL E (hash_builder m0) l, left_counter m0)) m0 = Ret m tt /\
      right_assign j (pairs_insert E (hashL E (hash_builder m0) l, left_counter m0)) m = Ret m tt.
  Proof.
    intros b s lc rc m0 m G l r (A & D & B & H & _) (j & e & Q & ->).
    set (f := pairs_insert E (hashL E (hash_builder m0) l, left_counter m0)).
    assert (Q' := Q). unfold t_get_mut in Q'.
    destruct (t_find (lo E) (right_set m0) (hashR E (hash_builder m0) r) (eqkr r)) as [i|] eqn:FI; [|discriminate].
    assert (X := FI). apply t_find_some in X as (h & e0 & NE & PE). unfold t_entry in Q'. rewrite NE in Q'. simpl in Q'.
    injection Q' as -> ->.
    exists j, e, (f e). split; [auto|]. split; [|split; [auto|split; [auto|]]].
    - cbn [hash_builder right_set set_right]. unfold t_get_mut.
      assert (Z : t_find (lo E) (t_modify (right_set m0) j f) (hashR E (hash_builder m0) r) (eqkr r) = Some j).
      { rewrite <- FI. unfold t_find. cbn [t_modify slots lay].
        assert (MF : map fst (update_nth j (fun s0 : N * right_item R => (fst s0, f (snd s0))) (slots (right_set m0)))
                     = map fst (slots (right_set m0))).
        { generalize (slots (right_set m0)). clear. induction j; intros [|x t]; simpl; auto. f_equal; auto. }
        rewrite MF. assert (X : forall {T} (p q : T -> bool) t, (forall x, p x = q x) -> find p t = find q t).
        { intros T p q t Y. induction t as [|x t IH]; simpl; auto. rewrite Y, IH. auto. }
        apply X. intros k.
        assert (NU : forall (t : list (N * right_item R)) a k, nth_error (update_nth a (fun s0 => (fst s0, f (snd s0))) t) k =
          if Nat.eqb a k then option_map (fun s0 => (fst s0, f (snd s0))) (nth_error t k) else nth_error t k).
        { clear. induction t as [|x t IH]; intros [|a] [|k]; simpl; auto. destruct (Nat.eqb a k); auto. }
        rewrite NU. destruct (Nat.eqb_spec j k) as [->|]; auto. rewrite NE. reflexivity. }
      rewrite Z. unfold t_entry. cbn [t_modify slots].
      assert (NU : nth_error (update_nth j (fun s0 : N * right_item R => (fst s0, f (snd s0))) (slots (right_set m0))) j =
        option_map (fun s0 => (fst s0, f (snd s0))) (nth_error (slots (right_set m0)) j)).
      { generalize (slots (right_set m0)). clear. induction j; intros [|x t]; simpl; auto. }
      rewrite NU, NE. reflexivity.
    - unfold right_assign, bind, getst, putst. cbn [right_set set_right hash_builder left_counter right_counter left_set].
      unfold set_right. cbn [hash_builder left_counter right_counter left_set right_set].
      replace (t_modify (t_modify (right_set m0) j f) j f) with (t_modify (right_set m0) j f); auto.
      unfold t_modify. cbn [slots lay]. f_equal. symmetry. apply update_twice. intros x Hx. simpl. f_equal.
      assert (x = (h, e)) by congruence. subst x. cbn [snd fst].
      unfold f, pairs_insert, set_pairs. cbn [r_id r_pairs r_value]. f_equal.
      apply set_insert_twice. apply nth_error_In in NE.
      eapply Permutation_in in NE; [|apply (rep_r _ _ _ _ _ _ _ _ H)]. apply in_map_iff in NE as (y & Y & Hy).
      injection Y as _ <-. simpl. eapply (rep_hashed_tab E); eauto.
  Qed.
  Lemma bind_ret : forall {A B} (c : M map' A) (k : A -> M map' B) m m' a, c m = Ret m' a -> bind c k m = k a m'.
  Proof. intros A B c k m m' a Q. unfold bind. rewrite Q. reflexivity. Qed.
  Lemma insert_left_run : forall l r m, insert_left E l r m =
    match t_get_mut E (right_set m) (hashR E (hash_builder m) r) (eqkr r) with
    | None => Ret m None
    | Some (j, x) =>
        (right_assign j (pairs_insert E (hashL E (hash_builder m) l, left_counter m)) ;;;
         digest <- remove_left E l ;;
         incr_left E ;;;
         left_insert E (hashL E (hash_builder m) l)
           (LI l (hashR E (hash_builder m) r) (r_id x) (left_counter m)) ;;;
         ret digest) m
    end.
  Proof.
    intros l r m. unfold insert_left, getst. unfold bind at 1. cbv zeta.
    destruct (t_get_mut E (right_set m) _ _) as [[j x]|]; reflexivity.
  Qed.
  Lemma insert_run : forall l r m, t_get_mut E (left_set m) (hashL E (hash_builder m) l) (eqkl l) = None ->
    insert E l r m =
    match t_get_mut E (right_set m) (hashR E (hash_builder m) r) (eqkr r) with
    | None => insert E l r m
    | Some (j, x) =>
        (right_assign j (pairs_insert E (hashL E (hash_builder m) l, left_counter m)) ;;;
         left_insert E (hashL E (hash_builder m) l)
           (LI l (hashR E (hash_builder m) r) (r_id x) (left_counter m)) ;;;
         incr_left E) m
    end.
  Proof.
    intros l r m Q. destruct (t_get_mut E (right_set m) _ _) as [[j x]|] eqn:QR; auto.
    unfold insert, getst. unfold bind at 1. cbv zeta. rewrite Q, QR. reflexivity.
  Qed.
  Lemma planted_insert_left : forall b s lc rc m0 m G l r, Repr b s lc rc m0 G -> planted E l r m0 m ->
    insert_left E l r m = insert_left E l r m0.
  Proof.
    intros b s lc rc m0 m G l r H PL.
    destruct (planted_again _ _ _ _ _ _ _ _ _ H PL) as (j & e & e' & Q0 & Q1 & QI & A0 & A1).
    destruct PL as (j1 & e1 & _ & QM).
    assert (HB : hash_builder m = hash_builder m0) by (rewrite QM; auto).
    assert (HC : left_counter m = left_counter m0) by (rewrite QM; auto).
    rewrite !insert_left_run, Q0, Q1, QI, HB, HC. rewrite (bind_ret _ _ _ _ _ A1), (bind_ret _ _ _ _ _ A0). reflexivity.
  Qed.
  Lemma planted_insert : forall b s lc rc m0 m G l r, Repr b s lc rc m0 G -> planted E l r m0 m ->
    s_contains_left (eqL E) G l = false -> insert E l r m = insert E l r m0.
  Proof.
    intros b s lc rc m0 m G l r H PL C.
    assert (GL := get_mut_l_cases E OK _ _ _ _ _ _ l H).
    rewrite (contains_l_find E) in C.
    destruct (planted_again _ _ _ _ _ _ _ _ _ H PL) as (j & e & e' & Q0 & Q1 & QI & A0 & A1).
    destruct PL as (j1 & e1 & _ & QM).
    assert (HB : hash_builder m = hash_builder m0) by (rewrite QM; auto).
    assert (HC : left_counter m = left_counter m0) by (rewrite QM; auto).
    assert (HL : left_set m = left_set m0) by (rewrite QM; auto).
    destruct (t_get_mut E (left_set m0) (hashL E (hash_builder m0) l) (eqkl l)) as [[i f]|] eqn:QL; [congruence|].
    rewrite (insert_run l r m), (insert_run l r m0).
    - rewrite Q0, Q1, QI, HB, HC. rewrite (bind_ret _ _ _ _ _ A1), (bind_ret _ _ _ _ _ A0). reflexivity.
    - exact QL.
    - rewrite HL, HB. exact QL.
  Qed.
End Mend.
