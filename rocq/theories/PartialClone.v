(* PartialCycleMap: clone when the Clone of the items and of the hasher returns equal but not
   identical values (property C85). *)
From Coq Require Import List NArith Lia Bool Permutation PeanoNat.
From Verif Require Import Closures IterFacts Prelude RawTable Optionals PartialCycleMap ListFacts TableFacts
  PartialSpec PartialHistory PartialProofs PartialProofs2 PartialProofs6 PartialProofs7
  PartialHistoryProofs Concrete PartialProps PartialProps2 PartialProps3 Clones.
Import ListNotations.
Open Scope N_scope.

(* src/partial_cycle_map.rs:2476-2484 *)
Definition mp_clone {T} (cl : T -> T) (e : mapping_pair T) : mapping_pair T :=
  MP (cl (value e)) (phash e) (pid e).

(* src/partial_cycle_map.rs:1704-1718; [cl], [cr] and [cs] are the Clone of L, R and S *)
Definition clone_with {L R S} (cl : L -> L) (cr : R -> R) (cs : S -> S) (m : pmap L R S)
    : pmap L R S :=
  PM (cs (hash_builder m)) (counter m)
     (t_clone (mp_clone cl) (left_set m)) (t_clone (mp_clone cr) (right_set m)).

(* [PartialCycleMap.clone] is the case of identical clones *)
Lemma clone_with_id : forall L R S (m : pmap L R S),
  clone_with (fun x => x) (fun x => x) (fun x => x) m = clone m.
Proof.
  intros L R S [s c tl tr]. unfold clone_with, clone. simpl.
  rewrite !t_clone_id by (intros []; reflexivity). auto.
Qed.

Section PartialClone.
  Context {L R S : Type}.
  Variable E : env L R S.
  Hypothesis OK : lawful E.
  Variables (cl : L -> L) (cr : R -> R) (cs : S -> S).
  Hypothesis CL : clones (eqL E) cl.
  Hypothesis CR : clones (eqR E) cr.
  Hypothesis CS : hasher_clones E cs.
  Notation entry := (optional_pair L R).
  Notation zent := (N * entry)%type.
  Implicit Types (m : pmap L R S) (l : L) (r : R) (P : list entry).

  Let EL := eqL_equiv _ OK.
  Let ER := eqR_equiv _ OK.

  Definition clone_entry (x : entry) : entry :=
    match x with
    | Neither => Neither
    | SomeLeft l => SomeLeft (cl l)
    | SomeRight r => SomeRight (cr r)
    | SomeBoth l r => SomeBoth (cl l) (cr r)
    end.
  Let zc (z : zent) : zent := (fst z, clone_entry (snd z)).

  Lemma eqL_clone : forall x y, eqL E x (cl y) = eqL E x y.
  Proof. intros. apply (eqv_r _ _ EL), CL. Qed.
  Lemma eqR_clone : forall x y, eqR E x (cr y) = eqR E x y.
  Proof. intros. apply (eqv_r _ _ ER), CR. Qed.
  Lemma hashL_clone : forall s x, hashL E (cs s) (cl x) = hashL E s x.
  Proof. intros. rewrite (proj1 (CS s)). symmetry. apply (hashL_ok _ OK), CL. Qed.
  Lemma hashR_clone : forall s x, hashR E (cs s) (cr x) = hashR E s x.
  Proof. intros. rewrite (proj2 (CS s)). symmetry. apply (hashR_ok _ OK), CR. Qed.

  (* ---- any map, whatever its tables hold ---- *)
  Notation copy := (clone_with cl cr cs).

  Lemma key_l_clone : forall m l,
    t_get (lo E) (t_clone (mp_clone cl) (left_set m)) (hashL E (cs (hash_builder m)) l)
      (equivalent_key (eqL E) l) =
    option_map (mp_clone cl)
      (t_get (lo E) (left_set m) (hashL E (hash_builder m) l) (equivalent_key (eqL E) l)).
  Proof. intros. rewrite (proj1 (CS _)). apply t_get_clone. intros. apply eqL_clone. Qed.
  Lemma key_r_clone : forall m r,
    t_get (lo E) (t_clone (mp_clone cr) (right_set m)) (hashR E (cs (hash_builder m)) r)
      (equivalent_key (eqR E) r) =
    option_map (mp_clone cr)
      (t_get (lo E) (right_set m) (hashR E (hash_builder m) r) (equivalent_key (eqR E) r)).
  Proof. intros. rewrite (proj2 (CS _)). apply t_get_clone. intros. apply eqR_clone. Qed.
  Lemma hid_clone : forall T (f : T -> T) (t : table (mapping_pair T)) h h' i,
    t_get (lo E) (t_clone (mp_clone f) t) h (hash_and_id h' i) =
    option_map (mp_clone f) (t_get (lo E) t h (hash_and_id h' i)).
  Proof. intros. apply t_get_clone. auto. Qed.

  (* asking for a clone of an item is asking for the item *)
  Lemma key_l_of_clone : forall m l,
    t_get (lo E) (left_set m) (hashL E (hash_builder m) (cl l)) (equivalent_key (eqL E) (cl l)) =
    t_get (lo E) (left_set m) (hashL E (hash_builder m) l) (equivalent_key (eqL E) l).
  Proof.
    intros. rewrite <- (hashL_ok _ OK _ _ _ (CL l)). apply t_get_ext. intros x.
    unfold equivalent_key. apply (eqv_l _ _ EL), CL.
  Qed.
  Lemma key_r_of_clone : forall m r,
    t_get (lo E) (right_set m) (hashR E (hash_builder m) (cr r)) (equivalent_key (eqR E) (cr r)) =
    t_get (lo E) (right_set m) (hashR E (hash_builder m) r) (equivalent_key (eqR E) r).
  Proof.
    intros. rewrite <- (hashR_ok _ OK _ _ _ (CR r)). apply t_get_ext. intros x.
    unfold equivalent_key. apply (eqv_l _ _ ER), CR.
  Qed.

  Lemma get_right_clone : forall m l, get_right E (copy m) l = option_map cr (get_right E m l).
  Proof.
    intros. unfold get_right, get_right_q. simpl. rewrite key_l_clone.
    destruct (t_get (lo E) (left_set m) _ _) as [x|]; auto. simpl.
    destruct (phash x); auto. rewrite hid_clone.
    rewrite (proj1 (CS _)). destruct (t_get (lo E) (right_set m) _ _); auto.
  Qed.
  Lemma get_left_clone : forall m r, get_left E (copy m) r = option_map cl (get_left E m r).
  Proof.
    intros. unfold get_left, get_left_q. simpl. rewrite key_r_clone.
    destruct (t_get (lo E) (right_set m) _ _) as [x|]; auto. simpl.
    destruct (phash x); auto. rewrite hid_clone.
    rewrite (proj2 (CS _)). destruct (t_get (lo E) (left_set m) _ _); auto.
  Qed.
  Lemma get_right_of_clone : forall m l, get_right E m (cl l) = get_right E m l.
  Proof.
    intros. unfold get_right, get_right_q. rewrite key_l_of_clone.
    rewrite <- (hashL_ok _ OK _ _ _ (CL l)). auto.
  Qed.
  Lemma get_left_of_clone : forall m r, get_left E m (cr r) = get_left E m r.
  Proof.
    intros. unfold get_left, get_left_q. rewrite key_r_of_clone.
    rewrite <- (hashR_ok _ OK _ _ _ (CR r)). auto.
  Qed.
  Lemma are_paired_clone : forall m l r, are_paired E (copy m) l r = are_paired E m l r.
  Proof.
    intros. unfold are_paired. simpl. rewrite key_l_clone, key_r_clone.
    rewrite (proj1 (CS _)), (proj2 (CS _)).
    destruct (t_get (lo E) (left_set m) _ _), (t_get (lo E) (right_set m) _ _); auto.
  Qed.
  Lemma are_paired_of_clone : forall m l r, are_paired E m (cl l) (cr r) = are_paired E m l r.
  Proof.
    intros. unfold are_paired. rewrite key_l_of_clone, key_r_of_clone.
    rewrite <- (hashL_ok _ OK _ _ _ (CL l)), <- (hashR_ok _ OK _ _ _ (CR r)). auto.
  Qed.

  Lemma single_clone : forall T (f : T -> T) (t : table (mapping_pair T)),
    collect single_next (single_len (slots (t_clone (mp_clone f) t))) (slots (t_clone (mp_clone f) t)) =
    omap (map f) (collect single_next (single_len (slots t)) (slots t)).
  Proof.
    intros T f t. unfold single_len. simpl. rewrite map_length.
    apply (collect_clone _ _ _ _ single_next single_next
      (map (fun x => (fst x, mp_clone f (snd x)))) f).
    intros [|[h x] it]; auto.
  Qed.

  Definition clone_pair (p : L * R) : L * R := (cl (fst p), cr (snd p)).
  Definition clone_lit (it : iter_l) : iter_l := map (fun x => (fst x, mp_clone cl (snd x))) it.
  Definition clone_rit (it : iter_r) : iter_r := map (fun x => (fst x, mp_clone cr (snd x))) it.
  Definition clone_its (it : iter_l * iter_r) : iter_l * iter_r :=
    (clone_lit (fst it), clone_rit (snd it)).

  Lemma iter_next_clone : forall m it, iter_next E (copy m) (clone_lit it) =
    omap (fun x => (option_map clone_entry (fst x), clone_lit (snd x))) (iter_next E m it).
  Proof.
    intros m [|[h x] it]; auto. unfold iter_next. simpl.
    rewrite get_right_clone, get_right_of_clone. destruct (get_right E m (value x)); auto.
  Qed.
  Lemma paired_next_clone : forall m it, paired_next E (copy m) (clone_lit it) =
    omap (fun x => (option_map clone_pair (fst x), clone_lit (snd x))) (paired_next E m it).
  Proof.
    intros m it. induction it as [|[h x] it IH]; auto. simpl. destruct (phash x) as [k|]; auto.
    unfold get_via_hashes_and_id. simpl. rewrite hashL_clone, !hid_clone.
    destruct (t_get (lo E) (left_set m) _ _); auto. simpl.
    destruct (t_get (lo E) (right_set m) _ _); auto.
  Qed.
  Lemma unpaired_next_clone : forall it, unpaired_next (clone_its it) =
    omap (fun x => (option_map clone_entry (fst x), clone_its (snd x))) (unpaired_next it).
  Proof.
    intros [lt rt]. unfold unpaired_next, clone_its. simpl.
    induction lt as [|[h x] lt IH]; simpl.
    - assert (X : unpaired_next_r (clone_rit rt) =
                  (option_map clone_entry (fst (unpaired_next_r (L := L) rt)),
                   clone_rit (snd (unpaired_next_r (L := L) rt)))).
      { induction rt as [|[h x] rt IH]; auto. simpl. destruct (phash x); auto. }
      rewrite X. destruct (unpaired_next_r rt); auto.
    - destruct (phash x); auto.
  Qed.

  (* C85: for every map, also one damaged by the defective calls: all iterators of the clone
     yield (or panic on) the clones of what those of the original yield, in the same order,
     and all lookups answer with the clones of the original's answers. *)
  Theorem C85_any_map : forall m,
    let m' := clone_with cl cr cs m in
    iter_all E m' = omap (map clone_entry) (iter_all E m) /\
    paired_rest E m' (iter_paired m') = omap (map clone_pair) (paired_rest E m (iter_paired m)) /\
    unpaired_rest (iter_unpaired m') = omap (map clone_entry) (unpaired_rest (iter_unpaired m)) /\
    collect single_next (single_len (iter_left m')) (iter_left m') =
      omap (map cl) (collect single_next (single_len (iter_left m)) (iter_left m)) /\
    collect single_next (single_len (iter_right m')) (iter_right m') =
      omap (map cr) (collect single_next (single_len (iter_right m)) (iter_right m)) /\
    len_left m' = len_left m /\ len_right m' = len_right m /\ is_empty m' = is_empty m /\
    (forall l, contains_left E m' l = contains_left E m l /\
               is_left_paired E m' l = is_left_paired E m l /\
               get_right E m' l = option_map cr (get_right E m l)) /\
    (forall r, contains_right E m' r = contains_right E m r /\
               is_right_paired E m' r = is_right_paired E m r /\
               get_left E m' r = option_map cl (get_left E m r)) /\
    (forall l r, are_paired E m' l r = are_paired E m l r) /\
    map_eq E m m' = map_eq E m m /\ map_eq E m' m = map_eq E m m.
  Proof.
    intros m m'. assert (LL : len_left m' = len_left m) by apply t_len_clone.
    assert (LR : len_right m' = len_right m) by apply t_len_clone.
    assert (LI : iter m' = clone_lit (iter m)) by reflexivity.
    assert (LN : length (iter m') = length (iter m)) by (rewrite LI; apply map_length).
    split.
    { unfold iter_all. rewrite LN, LI. apply collect_clone. apply iter_next_clone. }
    split.
    { unfold paired_rest. change (iter_paired m') with (clone_lit (iter_paired m)).
      replace (length (clone_lit (iter_paired m))) with (length (iter_paired m))
        by (symmetry; apply map_length).
      apply collect_clone. apply paired_next_clone. }
    split.
    { unfold unpaired_rest. change (iter_unpaired m') with (clone_its (iter_unpaired m)).
      replace (length (fst (clone_its (iter_unpaired m))) + length (snd (clone_its (iter_unpaired m))))%nat
        with (length (fst (iter_unpaired m)) + length (snd (iter_unpaired m)))%nat
        by (symmetry; f_equal; apply map_length).
      apply collect_clone. apply unpaired_next_clone. }
    split; [apply (single_clone _ cl (left_set m))|].
    split; [apply (single_clone _ cr (right_set m))|].
    split; [exact LL|]. split; [exact LR|]. split; [unfold is_empty; rewrite LL, LR; auto|].
    split.
    { intros l. unfold contains_left, is_left_paired, m'. simpl.
      rewrite key_l_clone. split; [|split; [|apply get_right_clone]];
        destruct (t_get (lo E) (left_set m) _ _); auto. }
    split.
    { intros r. unfold contains_right, is_right_paired, m'. simpl.
      rewrite key_r_clone. split; [|split; [|apply get_left_clone]];
        destruct (t_get (lo E) (right_set m) _ _); auto. }
    split; [intros; apply are_paired_clone|].
    assert (EI : forall x, eq_item E m' x = eq_item E m x).
    { unfold m'. intros [|l|r|l r]; simpl; auto.
      - rewrite get_right_clone. destruct (get_right E m l); auto.
      - rewrite get_left_clone. destruct (get_left E m r); auto.
      - rewrite are_paired_clone. auto. }
    assert (EI' : forall x, eq_item E m (clone_entry x) = eq_item E m x).
    { intros [|l|r|l r]; simpl; auto.
      - rewrite get_right_of_clone. auto.
      - rewrite get_left_of_clone. auto.
      - rewrite are_paired_of_clone. auto. }
    unfold map_eq. rewrite LL, LR, LN, !Nat.eqb_refl. simpl. split.
    { generalize (length (iter m)). intros n. generalize (iter m).
      induction n as [|n IH]; intros it; simpl; destruct (iter_next E m it) as [[[x|] it']|]; auto;
        rewrite EI; auto. destruct (eq_item E m x) as [[]|]; auto. }
    rewrite LI. generalize (length (iter m)). intros n. generalize (iter m).
    induction n as [|n IH]; intros it; simpl; unfold m'; rewrite iter_next_clone;
      destruct (iter_next E m it) as [[[x|] it']|]; simpl; auto;
      rewrite EI'; auto. destruct (eq_item E m x) as [[]|]; auto.
  Qed.

  (* ---- reachable maps ---- *)
  Lemma lefts_clone : forall P, lefts (map clone_entry P) = map cl (lefts P).
  Proof.
    unfold lefts. induction P as [|x P IH]; simpl; auto. rewrite IH, map_app.
    destruct x; auto.
  Qed.
  Lemma rights_clone : forall P, rights (map clone_entry P) = map cr (rights P).
  Proof.
    unfold rights. induction P as [|x P IH]; simpl; auto. rewrite IH, map_app.
    destruct x; auto.
  Qed.
  Lemma slotL_clone : forall s (Y : list zent),
    map (fun x => (fst x, mp_clone cl (snd x))) (flat_map (slotL E s) Y) =
    flat_map (slotL E (cs s)) (map zc Y).
  Proof.
    intros s Y. induction Y as [|[i x] Y IH]; simpl; auto. rewrite map_app, IH. f_equal.
    unfold slotL, zc, mp_clone. simpl.
    destruct x; simpl; rewrite ?hashL_clone, ?hashR_clone; auto.
  Qed.
  Lemma slotR_clone : forall s (Y : list zent),
    map (fun x => (fst x, mp_clone cr (snd x))) (flat_map (slotR E s) Y) =
    flat_map (slotR E (cs s)) (map zc Y).
  Proof.
    intros s Y. induction Y as [|[i x] Y IH]; simpl; auto. rewrite map_app, IH. f_equal.
    unfold slotR, zc, mp_clone. simpl.
    destruct x; simpl; rewrite ?hashL_clone, ?hashR_clone; auto.
  Qed.

  Lemma snd_zc : forall Z : list zent, map snd (map zc Z) = map clone_entry (map snd Z).
  Proof. intros. rewrite !map_map. auto. Qed.

  Lemma clone_rep : forall s c m Z, Rep E s c m Z ->
    Rep E (cs s) c (clone_with cl cr cs m) (map zc Z).
  Proof.
    intros s c m Z H. constructor; simpl.
    - rewrite (rep_hb _ _ _ _ _ H). auto.
    - apply (rep_c _ _ _ _ _ H).
    - rewrite <- slotL_clone. apply Permutation_map, (rep_l _ _ _ _ _ H).
    - rewrite <- slotR_clone. apply Permutation_map, (rep_r _ _ _ _ _ H).
    - rewrite map_map. apply (rep_ids _ _ _ _ _ H).
    - intros z Hz. apply in_map_iff in Hz as (y & <- & Hy). apply (rep_lt _ _ _ _ _ H y Hy).
    - rewrite snd_zc. destruct (rep_bij _ _ _ _ _ H) as (A & B & C). split; [|split].
      + rewrite lefts_clone. apply distinct_clone; auto.
      + rewrite rights_clone. apply distinct_clone; auto.
      + intros I. apply in_map_iff in I as ([] & X & I); try discriminate. auto.
  Qed.
  Lemma clone_repr : forall s c m P, Repr E s c m P ->
    Repr E (cs s) c (clone_with cl cr cs m) (map clone_entry P).
  Proof.
    intros s c m P (Z & H & ->). exists (map zc Z). split; [apply clone_rep; auto|].
    rewrite snd_zc. auto.
  Qed.

  (* C85 on reachable maps: moreover clone and original are equal in both directions, and from
     then on the clone is the independent map of the cloned entries. *)
  Theorem C85_clone : forall room m, reachable E room m ->
    let m' := clone_with cl cr cs m in
    map_eq E m m' = Done true /\ map_eq E m' m = Done true /\
    exists P, contents E m P /\ contents E m' (map clone_entry P) /\
      behaves_as E room m' (map clone_entry P).
  Proof.
    intros room m H m'.
    destruct (C85_any_map m) as (_ & HP & HU & _ & _ & _ & _ & _ & _ & _ & _ & Q1 & Q2).
    fold m' in HP, HU, Q1, Q2.
    rewrite Q1, Q2, (C42_reflexive E OK room m H). split; auto. split; auto.
    apply (reachable_view E OK) in H as (s & c & P & V & H & B). exists P. split; auto. split.
    - destruct V as (Q & U & V1 & V2 & ->). exists (map clone_pair Q), (map clone_entry U).
      rewrite HP, HU, V1, V2. repeat split; auto. rewrite map_app, !map_map. auto.
    - eapply repr_behaves; [auto|apply clone_repr; eauto|auto].
  Qed.
End PartialClone.

(* clones with another payload, and a hasher changing its state when cloned *)
Definition p_hist2 : list (op item item) :=
  [Insert (it 1) (it 10); Insert (it 2) (it 20); InsertLeft (it 3); InsertRight (it 30);
   Pair (it 3) (it 30); PairForced (it 1) (it 20); InsertLeft (it 6); InsertRight (it 61)].
Definition pmp1 : pmap item item N := fst (run env_parity (with_hasher 7 0 0) p_hist2).
Lemma pmp1_reachable : reachable env_parity 5 pmp1.
Proof.
  exists 7, 0, 0, p_hist2. split; [vm_compute; reflexivity|]. split; [|reflexivity].
  unfold p_hist2. cbn [guarded guard]. repeat split; auto.
Qed.

Example C85_case :
  clones (eqL env_parity) mark /\ clones (eqR env_parity) mark /\ hasher_clones env_parity reseed /\
  reachable env_parity 5 pmp1 /\
  let m' := clone_with mark mark reseed pmp1 in
  iter_all env_parity pmp1 =
    Done [SomeLeft (6, 0); SomeBoth (3, 0) (30, 0); SomeLeft (2, 0); SomeBoth (1, 0) (20, 0)] /\
  iter_all env_parity m' =
    Done [SomeLeft (6, 7); SomeBoth (3, 7) (30, 7); SomeLeft (2, 7); SomeBoth (1, 7) (20, 7)] /\
  unpaired_rest (iter_unpaired m') =
    Done [SomeLeft (6, 7); SomeLeft (2, 7); SomeRight (61, 7); SomeRight (10, 7)] /\
  get_right env_parity m' (it' 3) = Some (30, 7) /\ hash_builder m' = 9.
Proof.
  split; [exact mark_clones|]. split; [exact mark_clones|]. split; [exact reseed_clones|].
  split; [exact pmp1_reachable|]. vm_compute. repeat split; reflexivity.
Qed.

Print Assumptions C85_any_map.
Print Assumptions C85_clone.
