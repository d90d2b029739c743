(* CycleMap: clone when the Clone of the items and of the hasher returns equal but not
   identical values (property C84). *)
From Coq Require Import List NArith Lia Bool Permutation PeanoNat.
From Verif Require Import Closures Prelude RawTable Optionals CycleMap ListFacts TableFacts CycleMapSpec
  CycleMapHistory CycleMapProofs CycleMapProofs2 CycleMapProofs3 CycleMapHistoryProofs Concrete
  CycleMapProps CycleMapProps2 CycleMapProps3 Clones.
Import ListNotations.
Open Scope N_scope.

(* src/cycle_map.rs:1460-1468 *)
Definition mp_clone {T} (cl : T -> T) (e : mapping_pair T) : mapping_pair T :=
  MP (cl (value e)) (phash e) (pid e).

(* src/cycle_map.rs:1100-1114; [cl], [cr] and [cs] are the Clone of L, R and S *)
Definition clone_with {L R S} (cl : L -> L) (cr : R -> R) (cs : S -> S) (m : cmap L R S)
    : cmap L R S :=
  CM (cs (hash_builder m)) (counter m)
     (t_clone (mp_clone cl) (left_set m)) (t_clone (mp_clone cr) (right_set m)).

(* [CycleMap.clone] is the case of identical clones *)
Lemma clone_with_id : forall L R S (m : cmap L R S),
  clone_with (fun x => x) (fun x => x) (fun x => x) m = clone m.
Proof.
  intros L R S [s c tl tr]. unfold clone_with, clone. simpl.
  rewrite !t_clone_id by (intros []; reflexivity). auto.
Qed.

Section CycleMapClone.
  Context {L R S : Type}.
  Variable E : env L R S.
  Hypothesis OK : lawful E.
  Variables (cl : L -> L) (cr : R -> R) (cs : S -> S).
  Hypothesis CL : clones (eqL E) cl.
  Hypothesis CR : clones (eqR E) cr.
  Hypothesis CS : hasher_clones E cs.
  Implicit Types (m : cmap L R S) (l : L) (r : R) (P : list (L * R)).

  Let EL := eqL_equiv _ OK.
  Let ER := eqR_equiv _ OK.

  Definition clone_pair (p : L * R) : L * R := (cl (fst p), cr (snd p)).
  Let zc (z : N * L * R) : N * L * R := (zid z, cl (zl z), cr (zr z)).

  Lemma eqL_clone : forall x y, eqL E x (cl y) = eqL E x y.
  Proof. intros. apply (eqv_r _ _ EL), CL. Qed.
  Lemma eqR_clone : forall x y, eqR E x (cr y) = eqR E x y.
  Proof. intros. apply (eqv_r _ _ ER), CR. Qed.
  Lemma hashL_clone : forall s x, hashL E (cs s) (cl x) = hashL E s x.
  Proof. intros. rewrite (proj1 (CS s)). symmetry. apply (hashL_ok _ OK), CL. Qed.
  Lemma hashR_clone : forall s x, hashR E (cs s) (cr x) = hashR E s x.
  Proof. intros. rewrite (proj2 (CS s)). symmetry. apply (hashR_ok _ OK), CR. Qed.

  (* ---- any map, whatever its tables hold ---- *)
  Notation copy := (clone_with cl cr cs).

  Lemma key_l_clone : forall m l,
    t_get (lo E) (t_clone (mp_clone cl) (left_set m)) (hashL E (cs (hash_builder m)) l)
      (equivalent_key (eqL E) l) =
    option_map (mp_clone cl)
      (t_get (lo E) (left_set m) (hashL E (hash_builder m) l) (equivalent_key (eqL E) l)).
  Proof. intros. rewrite (proj1 (CS _)). apply t_get_clone. intros. apply eqL_clone. Qed.
  Lemma key_r_clone : forall m r,
    t_get (lo E) (t_clone (mp_clone cr) (right_set m)) (hashR E (cs (hash_builder m)) r)
      (equivalent_key (eqR E) r) =
    option_map (mp_clone cr)
      (t_get (lo E) (right_set m) (hashR E (hash_builder m) r) (equivalent_key (eqR E) r)).
  Proof. intros. rewrite (proj2 (CS _)). apply t_get_clone. intros. apply eqR_clone. Qed.
  Lemma hid_clone : forall T (f : T -> T) (t : table (mapping_pair T)) h h' i,
    t_get (lo E) (t_clone (mp_clone f) t) h (hash_and_id h' i) =
    option_map (mp_clone f) (t_get (lo E) t h (hash_and_id h' i)).
  Proof. intros. apply t_get_clone. auto. Qed.

  (* asking for a clone of an item is asking for the item *)
  Lemma key_l_of_clone : forall m l,
    t_get (lo E) (left_set m) (hashL E (hash_builder m) (cl l)) (equivalent_key (eqL E) (cl l)) =
    t_get (lo E) (left_set m) (hashL E (hash_builder m) l) (equivalent_key (eqL E) l).
  Proof.
    intros. rewrite <- (hashL_ok _ OK _ _ _ (CL l)). apply t_get_ext. intros x.
    unfold equivalent_key. apply (eqv_l _ _ EL), CL.
  Qed.
  Lemma key_r_of_clone : forall m r,
    t_get (lo E) (right_set m) (hashR E (hash_builder m) (cr r)) (equivalent_key (eqR E) (cr r)) =
    t_get (lo E) (right_set m) (hashR E (hash_builder m) r) (equivalent_key (eqR E) r).
  Proof.
    intros. rewrite <- (hashR_ok _ OK _ _ _ (CR r)). apply t_get_ext. intros x.
    unfold equivalent_key. apply (eqv_l _ _ ER), CR.
  Qed.

  Lemma get_right_clone : forall m l, get_right E (copy m) l = option_map cr (get_right E m l).
  Proof.
    intros. unfold get_right, get_right_q. simpl. rewrite key_l_clone.
    destruct (t_get (lo E) (left_set m) _ _) as [x|]; auto. simpl. rewrite hid_clone.
    rewrite (proj1 (CS _)). destruct (t_get (lo E) (right_set m) _ _); auto.
  Qed.
  Lemma get_left_clone : forall m r, get_left E (copy m) r = option_map cl (get_left E m r).
  Proof.
    intros. unfold get_left, get_left_q. simpl. rewrite key_r_clone.
    destruct (t_get (lo E) (right_set m) _ _) as [x|]; auto. simpl. rewrite hid_clone.
    rewrite (proj2 (CS _)). destruct (t_get (lo E) (left_set m) _ _); auto.
  Qed.
  Lemma get_right_of_clone : forall m l, get_right E m (cl l) = get_right E m l.
  Proof.
    intros. unfold get_right, get_right_q. rewrite key_l_of_clone.
    rewrite <- (hashL_ok _ OK _ _ _ (CL l)). auto.
  Qed.
  Lemma get_left_of_clone : forall m r, get_left E m (cr r) = get_left E m r.
  Proof.
    intros. unfold get_left, get_left_q. rewrite key_r_of_clone.
    rewrite <- (hashR_ok _ OK _ _ _ (CR r)). auto.
  Qed.
  Lemma are_paired_clone : forall m l r, are_paired E (copy m) l r = are_paired E m l r.
  Proof.
    intros. unfold are_paired. simpl. rewrite key_l_clone, key_r_clone.
    rewrite (proj1 (CS _)), (proj2 (CS _)).
    destruct (t_get (lo E) (left_set m) _ _), (t_get (lo E) (right_set m) _ _); auto.
  Qed.
  Lemma are_paired_of_clone : forall m l r, are_paired E m (cl l) (cr r) = are_paired E m l r.
  Proof.
    intros. unfold are_paired. rewrite key_l_of_clone, key_r_of_clone.
    rewrite <- (hashL_ok _ OK _ _ _ (CL l)), <- (hashR_ok _ OK _ _ _ (CR r)). auto.
  Qed.

  Lemma single_clone : forall T (f : T -> T) (t : table (mapping_pair T)),
    collect single_next (single_len (slots (t_clone (mp_clone f) t))) (slots (t_clone (mp_clone f) t)) =
    omap (map f) (collect single_next (single_len (slots t)) (slots t)).
  Proof.
    intros T f t. unfold single_len. simpl. rewrite map_length.
    apply (collect_clone _ _ _ _ single_next single_next
      (map (fun x => (fst x, mp_clone f (snd x)))) f).
    intros [|[h x] it]; auto.
  Qed.

  Definition clone_lit (it : list (N * mapping_pair L)) : list (N * mapping_pair L) :=
    map (fun x => (fst x, mp_clone cl (snd x))) it.
  Lemma iter_next_clone : forall m it, iter_next E (copy m) (clone_lit it) =
    omap (fun x => (option_map clone_pair (fst x), clone_lit (snd x))) (iter_next E m it).
  Proof.
    intros m [|[h x] it]; auto. unfold iter_next. simpl.
    rewrite get_right_clone, get_right_of_clone. destruct (get_right E m (value x)); auto.
  Qed.

  (* C84: for every map, also one damaged by dropping a drain iterator early: all iterators of
     the clone yield (or panic on) the clones of what those of the original yield, in the same
     order, and all lookups answer with the clones of the original's answers. *)
  Theorem C84_any_map : forall m,
    let m' := clone_with cl cr cs m in
    iter_all E m' = omap (map clone_pair) (iter_all E m) /\
    collect single_next (single_len (iter_left m')) (iter_left m') =
      omap (map cl) (collect single_next (single_len (iter_left m)) (iter_left m)) /\
    collect single_next (single_len (iter_right m')) (iter_right m') =
      omap (map cr) (collect single_next (single_len (iter_right m)) (iter_right m)) /\
    len m' = len m /\ is_empty m' = is_empty m /\
    (forall l, contains_left E m' l = contains_left E m l /\
               get_right E m' l = option_map cr (get_right E m l)) /\
    (forall r, contains_right E m' r = contains_right E m r /\
               get_left E m' r = option_map cl (get_left E m r)) /\
    (forall l r, are_paired E m' l r = are_paired E m l r) /\
    map_eq E m m' = map_eq E m m /\ map_eq E m' m = map_eq E m m.
  Proof.
    intros m m'. assert (LL : len m' = len m) by apply t_len_clone.
    assert (LI : iter m' = clone_lit (iter m)) by reflexivity.
    assert (LN : length (iter m') = length (iter m)) by (rewrite LI; apply map_length).
    split.
    { unfold iter_all. rewrite LN, LI. apply collect_clone. apply iter_next_clone. }
    split; [apply (single_clone _ cl (left_set m))|].
    split; [apply (single_clone _ cr (right_set m))|].
    split; [exact LL|]. split; [unfold is_empty; rewrite LL; auto|].
    split.
    { intros l. split; [|apply get_right_clone]. unfold contains_left, m'. simpl.
      rewrite key_l_clone. destruct (t_get (lo E) (left_set m) _ _); auto. }
    split.
    { intros r. split; [|apply get_left_clone]. unfold contains_right, m'. simpl.
      rewrite key_r_clone. destruct (t_get (lo E) (right_set m) _ _); auto. }
    split; [intros; apply are_paired_clone|].
    unfold map_eq. rewrite LL, LN, Nat.eqb_refl. simpl. split.
    { generalize (length (iter m)). intros n. generalize (iter m).
      induction n as [|n IH]; intros it; simpl; destruct (iter_next E m it) as [[[[l r]|] it']|]; auto;
        unfold m'; rewrite are_paired_clone; auto. destruct (are_paired E m l r); auto. }
    rewrite LI. generalize (length (iter m)). intros n. generalize (iter m).
    induction n as [|n IH]; intros it; simpl; unfold m'; rewrite iter_next_clone;
      destruct (iter_next E m it) as [[[[l r]|] it']|]; simpl; auto;
      rewrite are_paired_of_clone; auto. destruct (are_paired E m l r); auto.
  Qed.

  (* ---- reachable maps ---- *)
  Lemma clone_rep : forall s c m Z, Rep E s c m Z ->
    Rep E (cs s) c (clone_with cl cr cs m) (map zc Z).
  Proof.
    intros s c m Z H. constructor; simpl.
    - rewrite (rep_hb _ _ _ _ _ H). auto.
    - apply (rep_c _ _ _ _ _ H).
    - etransitivity; [apply Permutation_map, (rep_l _ _ _ _ _ H)|].
      rewrite !map_map. apply Permutation_refl'. apply map_ext. intros z.
      unfold slotL, zc, mp_clone, zl, zr, zid. simpl. rewrite hashL_clone, hashR_clone. auto.
    - etransitivity; [apply Permutation_map, (rep_r _ _ _ _ _ H)|].
      rewrite !map_map. apply Permutation_refl'. apply map_ext. intros z.
      unfold slotR, zc, mp_clone, zl, zr, zid. simpl. rewrite hashL_clone, hashR_clone. auto.
    - rewrite map_map. apply (rep_ids _ _ _ _ _ H).
    - intros z Hz. apply in_map_iff in Hz as (y & <- & Hy). apply (rep_lt _ _ _ _ _ H y Hy).
    - replace (map zl (map zc Z)) with (map cl (map zl Z)) by (rewrite !map_map; auto).
      apply distinct_clone; auto. apply (rep_dl _ _ _ _ _ H).
    - replace (map zr (map zc Z)) with (map cr (map zr Z)) by (rewrite !map_map; auto).
      apply distinct_clone; auto. apply (rep_dr _ _ _ _ _ H).
  Qed.

  Lemma clone_repr : forall s c m P, Repr E s c m P ->
    Repr E (cs s) c (clone_with cl cr cs m) (map clone_pair P).
  Proof.
    intros s c m P (Z & H & ->). exists (map zc Z). split; [apply clone_rep; auto|].
    rewrite !map_map. auto.
  Qed.

  (* C84 on reachable maps: moreover clone and original are equal in both directions, and from
     then on the clone is the independent map of the cloned pairs. *)
  Theorem C84_clone : forall room m, reachable E room m ->
    let m' := clone_with cl cr cs m in
    map_eq E m m' = Done true /\ map_eq E m' m = Done true /\
    exists P, contents E m P /\ contents E m' (map clone_pair P) /\
      behaves_as E room m' (map clone_pair P).
  Proof.
    intros room m H m'. assert (H0 := H).
    destruct (C84_any_map m) as (IA & _ & _ & _ & _ & _ & _ & _ & Q1 & Q2). fold m' in IA, Q1, Q2.
    rewrite Q1, Q2, (proj1 (C19_equivalence E OK) room m H). split; auto. split; auto.
    apply (reachable_view E OK) in H as (s & c & P & V & H & B). exists P. split; auto.
    split; [unfold contents in *; rewrite IA, V; auto|].
    eapply repr_behaves; [auto|apply clone_repr; eauto|auto].
  Qed.

  (* the public calls on a clone of a clone, and so on *)
  Theorem C84_clone_again : forall room m, reachable E room m ->
    let m'' := clone_with cl cr cs (clone_with cl cr cs m) in
    exists P, contents E m P /\ contents E m'' (map clone_pair (map clone_pair P)) /\
      behaves_as E room m'' (map clone_pair (map clone_pair P)).
  Proof.
    intros room m H m''. apply (reachable_view E OK) in H as (s & c & P & V & H & B).
    assert (H' := clone_repr _ _ _ _ H). assert (H'' := clone_repr _ _ _ _ H').
    exists P. split; auto. split; [|eapply repr_behaves; eauto].
    unfold contents in *. unfold m''. rewrite (proj1 (C84_any_map _)), (proj1 (C84_any_map m)), V. auto.
  Qed.
End CycleMapClone.

(* clones with another payload, and a hasher changing its state when cloned *)
Definition mp1 : cmap item item N := fst (run env_parity (with_hasher 7 0 0) hist1).
Lemma mp1_reachable : reachable env_parity 5 mp1.
Proof. exists 7, 0, 0, hist1. split; [vm_compute; reflexivity|reflexivity]. Qed.

Example C84_case :
  clones (eqL env_parity) mark /\ clones (eqR env_parity) mark /\ hasher_clones env_parity reseed /\
  reachable env_parity 5 mp1 /\
  let m' := clone_with mark mark reseed mp1 in
  iter_all env_parity mp1 = Done [(it 5, it 50); (it 4, it 30); (it 1, it 20)] /\
  iter_all env_parity m' = Done [((5, 7), (50, 7)); ((4, 7), (30, 7)); ((1, 7), (20, 7))] /\
  get_right env_parity m' (it' 4) = Some (30, 7) /\ hash_builder m' = 9.
Proof.
  split; [exact mark_clones|]. split; [exact mark_clones|]. split; [exact reseed_clones|].
  split; [exact mp1_reachable|]. vm_compute. auto.
Qed.

Print Assumptions C84_any_map.
Print Assumptions C84_clone.
Print Assumptions C84_clone_again.
