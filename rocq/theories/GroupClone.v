(* GroupMap: clone when the Clone of the items and of the hasher returns equal but not
   identical values (property C86). *)
From Coq Require Import List NArith Lia Bool Permutation PeanoNat.
From Verif Require Import Closures Prelude RawTable GroupMap ListFacts TableFacts GroupSpec
  GroupHistory GroupProofs GroupProofs5 GroupHistoryProofs Concrete GroupProps GroupProps3 Clones.
Import ListNotations.
Open Scope N_scope.

(* src/group_map.rs:1708-1717 *)
Definition li_clone {T} (cl : T -> T) (e : left_item T) : left_item T :=
  LI (cl (l_value e)) (l_hash e) (l_rid e) (l_id e).
(* src/group_map.rs:1750-1758; [pairs.clone()] copies hashes, ids and the hasher *)
Definition ri_clone {T} (cr : T -> T) (e : right_item T) : right_item T :=
  RI (cr (r_value e)) (r_pairs e) (r_id e).

(* src/group_map.rs:1024-1039; [cl], [cr] and [cs] are the Clone of L, R and S *)
Definition clone_with {L R S} (cl : L -> L) (cr : R -> R) (cs : S -> S) (m : gmap L R S)
    : gmap L R S :=
  GM (cs (hash_builder m)) (left_counter m) (right_counter m)
     (t_clone (li_clone cl) (left_set m)) (t_clone (ri_clone cr) (right_set m)).

(* [GroupMap.clone] is the case of identical clones *)
Lemma clone_with_id : forall L R S (m : gmap L R S),
  clone_with (fun x => x) (fun x => x) (fun x => x) m = clone m.
Proof.
  intros L R S [s c c' tl tr]. unfold clone_with, clone. simpl.
  rewrite !t_clone_id by (intros []; reflexivity). auto.
Qed.

Section GroupClone.
  Context {L R S : Type}.
  Variable E : env L R S.
  Hypothesis OK : lawful E.
  Variables (cl : L -> L) (cr : R -> R) (cs : S -> S).
  Hypothesis CL : clones (eqL E) cl.
  Hypothesis CR : clones (eqR E) cr.
  Hypothesis CS : hasher_clones E cs.
  Implicit Types (m : gmap L R S) (l : L) (r : R).

  Let EL := eqL_equiv _ OK.
  Let ER := eqR_equiv _ OK.

  Definition clone_pair (p : L * R) : L * R := (cl (fst p), cr (snd p)).
  Definition clone_item (x : option L * R) : option L * R := (option_map cl (fst x), cr (snd x)).

  Lemma eqL_clone : forall x y, eqL E x (cl y) = eqL E x y.
  Proof. intros. apply (eqv_r _ _ EL), CL. Qed.
  Lemma eqR_clone : forall x y, eqR E x (cr y) = eqR E x y.
  Proof. intros. apply (eqv_r _ _ ER), CR. Qed.
  Lemma hashL_clone : forall s x, hashL E (cs s) (cl x) = hashL E s x.
  Proof. intros. rewrite (proj1 (CS s)). symmetry. apply (hashL_ok _ OK), CL. Qed.
  Lemma hashR_clone : forall s x, hashR E (cs s) (cr x) = hashR E s x.
  Proof. intros. rewrite (proj2 (CS s)). symmetry. apply (hashR_ok _ OK), CR. Qed.

  (* ---- any map, whatever its tables hold ---- *)
  Notation copy := (clone_with cl cr cs).

  Lemma left_id_clone : forall m h i,
    t_get (lo E) (t_clone (li_clone cl) (left_set m)) h (left_with_left_id i) =
    option_map (li_clone cl) (t_get (lo E) (left_set m) h (left_with_left_id i)).
  Proof. intros. apply t_get_clone. auto. Qed.
  Lemma right_id_clone : forall m h i,
    t_get (lo E) (t_clone (ri_clone cr) (right_set m)) h (right_with_right_id i) =
    option_map (ri_clone cr) (t_get (lo E) (right_set m) h (right_with_right_id i)).
  Proof. intros. apply t_get_clone. auto. Qed.
  Lemma find_left_clone : forall m l,
    find_left E (copy m) l = option_map (li_clone cl) (find_left E m l).
  Proof.
    intros. unfold find_left. simpl. rewrite (proj1 (CS _)).
    apply t_get_clone. intros. apply (eqv_l _ _ EL), CL.
  Qed.
  Lemma find_right_clone : forall m r,
    find_right E (copy m) r = option_map (ri_clone cr) (find_right E m r).
  Proof.
    intros. unfold find_right. simpl. rewrite (proj2 (CS _)).
    apply t_get_clone. intros. apply (eqv_l _ _ ER), CR.
  Qed.

  (* asking for a clone of an item is asking for the item *)
  Lemma find_left_of_clone : forall m l, find_left E m (cl l) = find_left E m l.
  Proof.
    intros. unfold find_left. rewrite <- (hashL_ok _ OK _ _ _ (CL l)).
    apply t_get_ext. intros x. unfold equivalent_key_left. apply (eqv_r _ _ EL), CL.
  Qed.
  Lemma find_right_of_clone : forall m r, find_right E m (cr r) = find_right E m r.
  Proof.
    intros. unfold find_right. rewrite <- (hashR_ok _ OK _ _ _ (CR r)).
    apply t_get_ext. intros x. unfold equivalent_key_right. apply (eqv_r _ _ ER), CR.
  Qed.

  Lemma are_paired_clone : forall m l r, are_paired E (copy m) l r = are_paired E m l r.
  Proof.
    intros. unfold are_paired. rewrite find_left_clone, find_right_clone. simpl.
    rewrite (proj1 (CS _)), (proj2 (CS _)).
    destruct (find_left E m l), (find_right E m r); auto.
  Qed.
  Lemma are_paired_of_clone : forall m l r, are_paired E m (cl l) (cr r) = are_paired E m l r.
  Proof.
    intros. unfold are_paired. rewrite find_left_of_clone, find_right_of_clone.
    rewrite <- (hashL_ok _ OK _ _ _ (CL l)), <- (hashR_ok _ OK _ _ _ (CR r)). auto.
  Qed.
  Lemma is_right_paired_clone : forall m r, is_right_paired E (copy m) r = is_right_paired E m r.
  Proof. intros. unfold is_right_paired. rewrite find_right_clone. destruct (find_right E m r); auto. Qed.
  Lemma is_right_paired_of_clone : forall m r, is_right_paired E m (cr r) = is_right_paired E m r.
  Proof. intros. unfold is_right_paired. rewrite find_right_of_clone. auto. Qed.

  Definition clone_rit (it : iter_r) : iter_r := map (fun x => (fst x, ri_clone cr (snd x))) it.
  Definition clone_lit (it : iter_l) : iter_l := map (fun x => (fst x, li_clone cl (snd x))) it.
  Definition clone_it (it : iter_t) : iter_t := Iter (clone_rit (right_iter it)) (left_iter it).

  Lemma iter_next_right_clone : forall m lit rit,
    iter_next_right E (copy m) lit (clone_rit rit) =
    omap (fun x => (option_map clone_item (fst x), clone_it (snd x))) (iter_next_right E m lit rit).
  Proof.
    intros m lit rit. unfold iter_next_right. destruct rit as [|[h x] rit]; simpl; auto.
    destruct (hs_elems (r_pairs x)) as [|[h' i] ps]; simpl; auto.
    rewrite left_id_clone. unfold clone_item. simpl.
    destruct (t_get (lo E) (left_set m) h' (left_with_left_id i)); auto.
  Qed.
  Lemma iter_next_clone : forall m it, iter_next E (copy m) (clone_it it) =
    omap (fun x => (option_map clone_item (fst x), clone_it (snd x))) (iter_next E m it).
  Proof.
    intros m [rit lit]. unfold iter_next. simpl.
    destruct lit as [[|[h i] ps]|]; try apply iter_next_right_clone.
    rewrite left_id_clone. destruct (t_get (lo E) (left_set m) h (left_with_left_id i)) as [x|]; auto.
    simpl. rewrite right_id_clone.
    destruct (t_get (lo E) (right_set m) (l_hash x) (right_with_right_id (l_rid x))); auto.
  Qed.
  Lemma iter_bound_clone : forall it, iter_bound (clone_it it) = iter_bound it.
  Proof.
    intros [rit lit]. unfold iter_bound. simpl. f_equal.
    induction rit as [|x rit IH]; simpl; auto.
  Qed.
  Lemma paired_next_clone : forall m it, paired_next E (copy m) (clone_lit it) =
    omap (fun x => (option_map clone_pair (fst x), clone_lit (snd x))) (paired_next E m it).
  Proof.
    intros m it. destruct it as [|[h x] it]; simpl; auto. rewrite right_id_clone.
    destruct (t_get (lo E) (right_set m) (l_hash x) (right_with_right_id (l_rid x))); auto.
  Qed.
  Lemma unpaired_next_clone : forall it, unpaired_next (clone_rit it) =
    omap (fun x => (option_map cr (fst x), clone_rit (snd x))) (unpaired_next it).
  Proof.
    intros it. induction it as [|[h x] it IH]; simpl; auto. destruct (set_is_empty (r_pairs x)); auto.
  Qed.
  Lemma pair_next_clone : forall m it, pair_next E (copy m) it =
    omap (fun x => (option_map cl (fst x), snd x)) (pair_next E m it).
  Proof.
    intros m it. destruct it as [|[h i] it]; auto. simpl. rewrite left_id_clone.
    destruct (t_get (lo E) (left_set m) h (left_with_left_id i)); auto.
  Qed.

  (* C86: for every map, also one damaged by the defective calls: all iterators of the clone
     yield (or panic on) the clones of what those of the original yield, in the same order,
     and all lookups answer with the clones of the original's answers. *)
  Theorem C86_any_map : forall m,
    let m' := clone_with cl cr cs m in
    iter_rest E m' (iter m') = omap (map clone_item) (iter_rest E m (iter m)) /\
    paired_rest E m' (iter_paired m') = omap (map clone_pair) (paired_rest E m (iter_paired m)) /\
    unpaired_rest (iter_unpaired m') = omap (map cr) (unpaired_rest (iter_unpaired m)) /\
    left_rest (iter_left m') = omap (map cl) (left_rest (iter_left m)) /\
    right_rest (iter_right m') = omap (map cr) (right_rest (iter_right m)) /\
    len_left m' = len_left m /\ len_right m' = len_right m /\ is_empty m' = is_empty m /\
    (forall l, contains_left E m' l = contains_left E m l /\
               get_right E m' l = option_map cr (get_right E m l)) /\
    (forall r, contains_right E m' r = contains_right E m r /\
               is_right_paired E m' r = is_right_paired E m r /\
               option_map (pair_rest E m') (get_left_iter E m' r) =
               option_map (fun it => omap (map cl) (pair_rest E m it)) (get_left_iter E m r)) /\
    (forall l r, are_paired E m' l r = are_paired E m l r) /\
    map_eq E m m' = map_eq E m m /\ map_eq E m' m = map_eq E m m.
  Proof.
    intros m m'.
    assert (LL : len_left m' = len_left m) by apply t_len_clone.
    assert (LR : len_right m' = len_right m) by apply t_len_clone.
    split.
    { unfold iter_rest. change (iter m') with (clone_it (iter m)). rewrite iter_bound_clone.
      apply collect_clone. apply iter_next_clone. }
    split.
    { unfold paired_rest. change (iter_paired m') with (clone_lit (iter_paired m)).
      replace (length (clone_lit (iter_paired m))) with (length (iter_paired m))
        by (symmetry; apply map_length).
      apply collect_clone. apply paired_next_clone. }
    split.
    { unfold unpaired_rest. change (iter_unpaired m') with (clone_rit (iter_unpaired m)).
      replace (length (clone_rit (iter_unpaired m))) with (length (iter_unpaired m))
        by (symmetry; apply map_length).
      apply collect_clone. apply unpaired_next_clone. }
    split.
    { unfold left_rest. change (iter_left m') with (clone_lit (iter_left m)).
      replace (length (clone_lit (iter_left m))) with (length (iter_left m))
        by (symmetry; apply map_length).
      apply collect_clone. intros [|[h x] it]; auto. }
    split.
    { unfold right_rest. change (iter_right m') with (clone_rit (iter_right m)).
      replace (length (clone_rit (iter_right m))) with (length (iter_right m))
        by (symmetry; apply map_length).
      apply collect_clone. intros [|[h x] it]; auto. }
    split; [exact LL|]. split; [exact LR|]. split; [unfold is_empty; rewrite LL, LR; auto|].
    split.
    { intros l. unfold contains_left, m'. rewrite find_left_clone. split.
      - destruct (find_left E m l); auto.
      - change (get_right E (copy m) l) with
          (match find_left E (copy m) l with
           | None => None
           | Some x => option_map r_value
               (t_get (lo E) (right_set (copy m)) (l_hash x) (right_with_right_id (l_rid x)))
           end).
        change (get_right E m l) with
          (match find_left E m l with
           | None => None
           | Some x => option_map r_value
               (t_get (lo E) (right_set m) (l_hash x) (right_with_right_id (l_rid x)))
           end).
        rewrite find_left_clone. destruct (find_left E m l) as [x|]; auto. simpl.
        rewrite right_id_clone.
        destruct (t_get (lo E) (right_set m) (l_hash x) (right_with_right_id (l_rid x))); auto. }
    split.
    { intros r. unfold contains_right, m'. rewrite find_right_clone, is_right_paired_clone.
      split; [destruct (find_right E m r); auto|]. split; auto.
      change (get_left_iter E (copy m) r) with
        (option_map (fun x => hs_elems (r_pairs x)) (find_right E (copy m) r)).
      change (get_left_iter E m r) with
        (option_map (fun x => hs_elems (r_pairs x)) (find_right E m r)).
      rewrite find_right_clone. destruct (find_right E m r) as [x|]; auto. simpl. f_equal.
      unfold pair_rest.
      apply (collect_clone _ _ _ _ (pair_next E m) (pair_next E (copy m)) (fun it => it) cl).
      apply pair_next_clone. }
    split; [intros; apply are_paired_clone|].
    assert (EI : forall x, eq_item E m' x = eq_item E m x).
    { intros [[l|] r]; unfold eq_item, m'; simpl; [apply are_paired_clone|].
      rewrite is_right_paired_clone. auto. }
    assert (EI' : forall x, eq_item E m (clone_item x) = eq_item E m x).
    { intros [[l|] r]; unfold eq_item; simpl; [apply are_paired_of_clone|].
      rewrite is_right_paired_of_clone. auto. }
    unfold map_eq. rewrite LL, LR. split.
    { rewrite !Nat.eqb_refl. simpl. generalize (iter_bound (iter m)). generalize (iter m).
      intros it0 n. revert it0.
      induction n as [|n IH]; intros it; simpl; destruct (iter_next E m it) as [[[x|] it']|]; auto;
        rewrite EI; auto. destruct (eq_item E m x); auto. }
    rewrite !Nat.eqb_refl. simpl. change (iter m') with (clone_it (iter m)).
    rewrite iter_bound_clone. generalize (iter_bound (iter m)). generalize (iter m).
      intros it0 n. revert it0.
    induction n as [|n IH]; intros it; simpl; unfold m'; rewrite iter_next_clone;
      destruct (iter_next E m it) as [[[x|] it']|]; simpl; auto;
      rewrite EI'; auto. destruct (eq_item E m x); auto.
  Qed.

  (* ---- reachable maps ---- *)
  Let zc (z : zleft L R) : zleft L R := ZL (z_id z) (cl (z_l z)) (z_g z) (cr (z_r z)) (z_rid z).
  Let yc (y : zright R) : zright R := ZR (y_id y) (cr (y_r y)) (y_tab y).

  Lemma clone_rep : forall s lc rc m A D B, Rep E s lc rc m A D B ->
    Rep E (cs s) lc rc (copy m) (map zc A) (map zc D) (map yc B).
  Proof.
    intros s lc rc m A D B H. constructor; simpl; rewrite <- ?map_app.
    - rewrite (rep_hb _ _ _ _ _ _ _ _ H). auto.
    - etransitivity; [apply Permutation_map, (rep_l _ _ _ _ _ _ _ _ H)|].
      rewrite !map_map. apply Permutation_refl'. apply map_ext. intros z.
      unfold slotL, zc, li_clone. simpl. rewrite hashL_clone, hashR_clone. auto.
    - etransitivity; [apply Permutation_map, (rep_r _ _ _ _ _ _ _ _ H)|].
      rewrite !map_map. apply Permutation_refl'. apply map_ext. intros z.
      unfold slotR, yc, ri_clone. simpl. rewrite hashR_clone. auto.
    - intros y Hy. apply in_map_iff in Hy as (y0 & <- & Hy). simpl.
      etransitivity; [apply (rep_tab _ _ _ _ _ _ _ _ H y0 Hy)|].
      apply Permutation_refl'. induction (A ++ D) as [|z Z IH]; simpl; auto.
      change (in_group (y_id y0) (zc z)) with (in_group (y_id y0) z).
      destruct (in_group (y_id y0) z); simpl; auto. rewrite IH. f_equal.
      unfold pslot, pkey, zc. simpl. rewrite hashL_clone. auto.
    - rewrite map_map. apply (rep_lids _ _ _ _ _ _ _ _ H).
    - rewrite map_map. apply (rep_rids _ _ _ _ _ _ _ _ H).
    - intros z Hz. apply in_map_iff in Hz as (y & <- & Hy). apply (rep_llt _ _ _ _ _ _ _ _ H y Hy).
    - intros z Hz. apply in_map_iff in Hz as (y & <- & Hy). apply (rep_rlt _ _ _ _ _ _ _ _ H y Hy).
    - intros z Hz. apply in_map_iff in Hz as (z0 & <- & Hz).
      destruct (rep_link _ _ _ _ _ _ _ _ H z0 Hz) as (y & Hy & I & Q). exists (yc y).
      split; [apply in_map; auto|]. simpl. split; auto. congruence.
    - replace (map z_l (map zc A)) with (map cl (map z_l A)) by (rewrite !map_map; auto).
      apply distinct_clone; auto. apply (rep_eql _ _ _ _ _ _ _ _ H).
    - replace (map y_r (map yc B)) with (map cr (map y_r B)) by (rewrite !map_map; auto).
      apply distinct_clone; auto. apply (rep_eqr _ _ _ _ _ _ _ _ H).
  Qed.
  Definition clone_contents (G : contents L R) : contents L R :=
    GC (map cr (g_rights G)) (map clone_pair (g_pairs G)).
  Lemma clone_repr : forall b s lc rc m G, Repr E b s lc rc m G ->
    Repr E b (cs s) lc rc (copy m) (clone_contents G).
  Proof.
    intros b s lc rc m G (A & D & B & H & -> & (T1 & T2) & C1 & C2).
    exists (map zc A), (map zc D), (map yc B). split; [apply clone_rep; auto|]. split.
    { unfold clone_contents, GroupProofs.view. simpl. rewrite !map_map. auto. }
    split; [|auto]. split.
    - intros X. rewrite (T1 X). auto.
    - intros X z Hz. apply in_map_iff in Hz as (y & <- & Hy). apply (T2 X y Hy).
  Qed.

  (* C86 on reachable maps: moreover clone and original are equal in both directions, and from
     then on the clone is the independent map of the cloned contents. *)
  Theorem C86_clone : forall room m, reachable E room m ->
    let m' := clone_with cl cr cs m in
    map_eq E m m' = Done true /\ map_eq E m' m = Done true /\
    exists rs ps, holds E m rs ps /\ holds E m' (map cr rs) (map clone_pair ps) /\
      answers E m' (map cr rs) (map clone_pair ps) /\ follows E m' (map clone_pair ps) /\
      behaves_as E room m' (GC (map cr rs) (map clone_pair ps)).
  Proof.
    intros room m H m'.
    destruct (C86_any_map m) as (_ & HP & _ & _ & HR & _ & _ & _ & _ & _ & _ & Q1 & Q2).
    fold m' in HP, HR, Q1, Q2. rewrite Q1, Q2, (C57_reflexive E OK room m H).
    split; auto. split; auto.
    apply (reachable_repr E OK) in H as (s & lc & rc & G & H & B1 & B2).
    apply (GroupProps.view E OK) in H as (rs & ps & V & _ & _ & H).
    assert (H' := clone_repr _ _ _ _ _ _ H). fold m' in H'. unfold clone_contents in H'. simpl in H'.
    exists rs, ps. split; auto. split.
    { destruct V as [V1 V2]. split; [rewrite HR, V1|rewrite HP, V2]; auto. }
    split; [eapply (answers_repr E OK); eauto|]. split; [eapply (follows_repr E OK); eauto|].
    intros ops B GD.
    destruct (run_calm E OK ops _ _ _ _ _ H') as (G' & lc' & rc' & SR & HF & _); auto; try lia.
    destruct (GroupProps.view E OK _ _ _ _ _ _ HF) as (rs' & ps' & V' & P1 & P2 & _).
    exists G', rs', ps'. auto.
  Qed.
End GroupClone.

(* clones with another payload, and a hasher changing its state when cloned *)
Example C86_case :
  clones (eqL env_parity) mark /\ clones (eqR env_parity) mark /\ hasher_clones env_parity reseed /\
  reachable env_parity 5 (gm1 env_parity) /\
  let m' := clone_with mark mark reseed (gm1 env_parity) in
  paired_rest env_parity (gm1 env_parity) (iter_paired (gm1 env_parity)) =
    Done [(it 8, it 10); (it 7, it 10); (it 6, it 30); (it 5, it 30); (it 2, it 30); (it 1, it 10)] /\
  paired_rest env_parity m' (iter_paired m') =
    Done [((8, 7), (10, 7)); ((7, 7), (10, 7)); ((6, 7), (30, 7)); ((5, 7), (30, 7)); ((2, 7), (30, 7));
          ((1, 7), (10, 7))] /\
  unpaired_rest (iter_unpaired m') = Done [(90, 7); (70, 7); (40, 7)] /\
  get_right env_parity m' (it' 1) = Some (10, 7) /\ hash_builder m' = 9.
Proof.
  split; [exact mark_clones|]. split; [exact mark_clones|]. split; [exact reseed_clones|].
  split; [apply gm1_reachable; [simpl; auto|reflexivity]|]. vm_compute. repeat split; reflexivity.
Qed.

Print Assumptions C86_any_map.
Print Assumptions C86_clone.
