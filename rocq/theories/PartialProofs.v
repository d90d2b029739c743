(* Refinement of PartialCycleMap to lists of entries: invariant, lookups, removal, insertion. *)
From Coq Require Import List NArith Lia Bool Permutation.
From Verif Require Import Prelude RawTable Optionals PartialCycleMap PartialSpec ListFacts TableFacts.
Import ListNotations.
Open Scope N_scope.

Ltac mrun := cbv [bind ret getst putst unwrap panic] in *.

Section SpecFacts.
  Context {L R : Type} (eL : L -> L -> bool) (eR : R -> R -> bool).
  Context (EL : equivalence eL) (ER : equivalence eR).
  Notation entry := (optional_pair L R).
  Implicit Types (P : list entry) (x y : entry).

  Lemma in_lefts : forall P a, In a (lefts P) <-> exists x, In x P /\ op_get_left x = Some a.
  Proof.
    intros P a. unfold lefts. rewrite in_flat_map. split; intros (x & Hx & H); exists x; split; auto.
    - destruct (op_get_left x); simpl in H; [destruct H as [->|[]]; auto|easy].
    - rewrite H. left; auto.
  Qed.
  Lemma in_rights : forall P a, In a (rights P) <-> exists x, In x P /\ op_get_right x = Some a.
  Proof.
    intros P a. unfold rights. rewrite in_flat_map. split; intros (x & Hx & H); exists x; split; auto.
    - destruct (op_get_right x); simpl in H; [destruct H as [->|[]]; auto|easy].
    - rewrite H. left; auto.
  Qed.
  Lemma lefts_perm : forall P P', Permutation P P' -> Permutation (lefts P) (lefts P').
  Proof. intros. apply Permutation_flat_map; auto. Qed.
  Lemma rights_perm : forall P P', Permutation P P' -> Permutation (rights P) (rights P').
  Proof. intros. apply Permutation_flat_map; auto. Qed.
  Lemma lefts_app : forall P P', lefts (P ++ P') = lefts P ++ lefts P'.
  Proof. intros. apply flat_map_app. Qed.
  Lemma rights_app : forall P P', rights (P ++ P') = rights P ++ rights P'.
  Proof. intros. apply flat_map_app. Qed.

  (* an item of one part is not held by the other part *)
  Lemma has_l_apart : forall P P' q a, distinct eL (lefts (P ++ P')) -> In a (lefts P) ->
    eL q a = true -> forall y, In y P' -> has_l eL q y = false.
  Proof.
    intros P P' q a D Ha Hq y Hy. unfold has_l.
    destruct (op_get_left y) as [b|] eqn:B; auto.
    rewrite (eqb_replace_l _ EL _ _ _ Hq). rewrite lefts_app in D.
    apply distinct_app in D as (_ & _ & D). apply D; auto. apply in_lefts; eauto.
  Qed.
  Lemma has_r_apart : forall P P' q a, distinct eR (rights (P ++ P')) -> In a (rights P) ->
    eR q a = true -> forall y, In y P' -> has_r eR q y = false.
  Proof.
    intros P P' q a D Ha Hq y Hy. unfold has_r.
    destruct (op_get_right y) as [b|] eqn:B; auto.
    rewrite (eqb_replace_l _ ER _ _ _ Hq). rewrite rights_app in D.
    apply distinct_app in D as (_ & _ & D). apply D; auto. apply in_rights; eauto.
  Qed.

  Lemma has_l_true : forall q x, has_l eL q x = true ->
    exists a, op_get_left x = Some a /\ eL q a = true.
  Proof. unfold has_l; intros q x H. destruct (op_get_left x); [eauto|discriminate]. Qed.
  Lemma has_r_true : forall q x, has_r eR q x = true ->
    exists a, op_get_right x = Some a /\ eR q a = true.
  Proof. unfold has_r; intros q x H. destruct (op_get_right x); [eauto|discriminate]. Qed.
End SpecFacts.

Section TableAt.
  Context {L R S : Type} (E : env L R S) (OK : lawful E) {A : Type}.
  Implicit Types (t : table A).

  (* bucket i holds entry e under hash h; the other buckets are rest *)
  Definition at_slot t (i : nat) (h : N) (e : A) (rest : list (N * A)) : Prop :=
    nth_error (slots t) i = Some (h, e) /\ Permutation (slots t) ((h, e) :: rest).

  Lemma nth_update_nth : forall {B} (f : B -> B) l i x, nth_error l i = Some x ->
    nth_error (update_nth i f l) i = Some (f x).
  Proof.
    induction l; destruct i; simpl; intros x H; try discriminate.
    - inversion H; auto.
    - auto.
  Qed.

  Lemma modify_at : forall t i h e rest f, at_slot t i h e rest ->
    at_slot (t_modify t i f) i h (f e) rest.
  Proof.
    intros t i h e rest f [A1 B]. split.
    - simpl. erewrite nth_update_nth by eauto. auto.
    - apply t_modify_perm; auto.
  Qed.

  Lemma at_perm : forall t i h e rest rest', Permutation rest rest' ->
    at_slot t i h e rest -> at_slot t i h e rest'.
  Proof. intros t i h e rest rest' P [A1 B]; split; auto. rewrite B. auto. Qed.

  Lemma get_mut_unique : forall t h p e rest, Permutation (slots t) ((h, e) :: rest) ->
    p e = true -> (forall x, In x rest -> p (snd x) = false) ->
    exists i, t_get_mut E t h p = Some (i, e) /\ at_slot t i h e rest.
  Proof.
    intros t h p e rest P He Hr.
    destruct (t_find_unique _ (lo_ok _ OK) t h p e rest P He Hr) as (i & F & Hn).
    exists i. unfold t_get_mut, t_entry, at_slot. rewrite F, Hn. auto.
  Qed.
  Lemma get_mut_absent : forall t h p, (forall x, In x (slots t) -> p (snd x) = false) ->
    t_get_mut E t h p = None.
  Proof. intros. unfold t_get_mut. rewrite t_find_absent; auto. Qed.
End TableAt.

Section Proofs.
  Context {L R S : Type} (E : env L R S) (OK : lawful E).
  Notation pm := (pmap L R S).
  Notation entry := (optional_pair L R).
  Notation zent := (N * entry)%type.

  Definition slotL (s : S) (z : zent) : list (N * mapping_pair L) :=
    match op_get_left (snd z) with
    | Some l => [(hashL E s l, MP l (option_map (hashR E s) (op_get_right (snd z))) (fst z))]
    | None => []
    end.
  Definition slotR (s : S) (z : zent) : list (N * mapping_pair R) :=
    match op_get_right (snd z) with
    | Some r => [(hashR E s r, MP r (option_map (hashL E s) (op_get_left (snd z))) (fst z))]
    | None => []
    end.

  (* both tables come from one list of entries with ids *)
  Record Rep (s : S) (c : N) (m : pm) (Z : list zent) : Prop := {
    rep_hb : hash_builder m = s;
    rep_c : counter m = c;
    rep_l : Permutation (slots (left_set m)) (flat_map (slotL s) Z);
    rep_r : Permutation (slots (right_set m)) (flat_map (slotR s) Z);
    rep_ids : NoDup (map fst Z);
    rep_lt : forall z, In z Z -> fst z < c;
    rep_bij : partial_bijection (eqL E) (eqR E) (map snd Z)
  }.

  Definition Repr s c m (P : list entry) : Prop := exists Z, Rep s c m Z /\ P = map snd Z.

  Let EL := eqL_equiv _ OK.
  Let ER := eqR_equiv _ OK.
  Let LO := lo_ok _ OK.

  Lemma pb_perm : forall P P', Permutation P P' -> partial_bijection (eqL E) (eqR E) P ->
    partial_bijection (eqL E) (eqR E) P'.
  Proof.
    intros P P' H (A & B & C). split; [|split].
    - eapply distinct_perm; [exact EL|apply lefts_perm; exact H|auto].
    - eapply distinct_perm; [exact ER|apply rights_perm; exact H|auto].
    - intro I. apply C. eapply Permutation_in; [symmetry|]; eauto.
  Qed.

  Lemma rep_perm : forall s c m Z Z', Permutation Z Z' -> Rep s c m Z -> Rep s c m Z'.
  Proof.
    intros s c m Z Z' P H. destruct H. constructor; auto.
    - etransitivity; eauto. apply Permutation_flat_map; auto.
    - etransitivity; eauto. apply Permutation_flat_map; auto.
    - eapply NoDup_perm; [apply Permutation_map; exact P|auto].
    - intros. apply rep_lt0. eapply Permutation_in; [symmetry|]; eauto.
    - eapply pb_perm; [apply Permutation_map; exact P|auto].
  Qed.

  Lemma repr_perm : forall s c m P P', Permutation P P' -> Repr s c m P -> Repr s c m P'.
  Proof.
    intros s c m P P' HP (Z & H & ->).
    symmetry in HP. apply Permutation_map_inv in HP as (Z' & -> & HP).
    exists Z'; split; auto. eapply rep_perm; eauto.
  Qed.

  Lemma repr_bij : forall s c m P, Repr s c m P -> partial_bijection (eqL E) (eqR E) P.
  Proof. intros s c m P (Z & H & ->). apply (rep_bij _ _ _ _ H). Qed.

  Lemma rep_hashed_l : forall s c m Z, Rep s c m Z ->
    hashed (make_hasher_l E s) (slots (left_set m)).
  Proof.
    intros s c m Z H. eapply hashed_perm; [symmetry; apply (rep_l _ _ _ _ H)|].
    intros x Hx. apply in_flat_map in Hx as (z & _ & Hz). unfold slotL in Hz.
    destruct (op_get_left (snd z)); [destruct Hz as [<-|[]]; reflexivity|easy].
  Qed.
  Lemma rep_hashed_r : forall s c m Z, Rep s c m Z ->
    hashed (make_hasher_r E s) (slots (right_set m)).
  Proof.
    intros s c m Z H. eapply hashed_perm; [symmetry; apply (rep_r _ _ _ _ H)|].
    intros x Hx. apply in_flat_map in Hx as (z & _ & Hz). unfold slotR in Hz.
    destruct (op_get_right (snd z)); [destruct Hz as [<-|[]]; reflexivity|easy].
  Qed.

  (* ---- entries that a search does not match ---- *)
  Lemma key_l_other : forall s Z q x, (forall z, In z Z -> has_l (eqL E) q (snd z) = false) ->
    In x (flat_map (slotL s) Z) -> equivalent_key (eqL E) q (snd x) = false.
  Proof.
    intros s Z q x H Hx. apply in_flat_map in Hx as (z & Hz & Hx). specialize (H z Hz).
    unfold slotL in Hx. unfold has_l in H.
    destruct (op_get_left (snd z)); [destruct Hx as [<-|[]]; auto|easy].
  Qed.
  Lemma key_r_other : forall s Z q x, (forall z, In z Z -> has_r (eqR E) q (snd z) = false) ->
    In x (flat_map (slotR s) Z) -> equivalent_key (eqR E) q (snd x) = false.
  Proof.
    intros s Z q x H Hx. apply in_flat_map in Hx as (z & Hz & Hx). specialize (H z Hz).
    unfold slotR in Hx. unfold has_r in H.
    destruct (op_get_right (snd z)); [destruct Hx as [<-|[]]; auto|easy].
  Qed.
  Lemma id_l_other : forall s Z i x, (forall z, In z Z -> fst z <> i) ->
    In x (flat_map (slotL s) Z) -> just_id i (snd x) = false.
  Proof.
    intros s Z i x H Hx. apply in_flat_map in Hx as (z & Hz & Hx). specialize (H z Hz).
    unfold slotL in Hx. destruct (op_get_left (snd z)); [destruct Hx as [<-|[]]|easy].
    unfold just_id; simpl. apply N.eqb_neq. auto.
  Qed.
  Lemma id_r_other : forall s Z i x, (forall z, In z Z -> fst z <> i) ->
    In x (flat_map (slotR s) Z) -> just_id i (snd x) = false.
  Proof.
    intros s Z i x H Hx. apply in_flat_map in Hx as (z & Hz & Hx). specialize (H z Hz).
    unfold slotR in Hx. destruct (op_get_right (snd z)); [destruct Hx as [<-|[]]|easy].
    unfold just_id; simpl. apply N.eqb_neq. auto.
  Qed.
  Lemma hid_of_id : forall {T} h i (x : mapping_pair T), just_id i x = false -> hash_and_id h i x = false.
  Proof. unfold just_id, hash_and_id; intros T h i x ->. auto. Qed.

  Lemma ids_other : forall z Z, NoDup (map fst (z :: Z)) ->
    forall x : zent, In x Z -> fst x <> fst z.
  Proof. intros z Z H x Hx. exact (NoDup_map_cons_notin _ _ _ H x Hx). Qed.

  (* ---- the entry holding q ---- *)
  Lemma split_l : forall s c m Z q, Rep s c m Z ->
    (exists z Z' a, Permutation Z (z :: Z') /\ Rep s c m (z :: Z') /\
        op_get_left (snd z) = Some a /\ eqL E q a = true /\ hashL E s q = hashL E s a /\
        forall x, In x Z' -> has_l (eqL E) q (snd x) = false)
    \/ (forall x, In x Z -> has_l (eqL E) q (snd x) = false).
  Proof.
    intros s c m Z q H.
    destruct (existsb (fun z => has_l (eqL E) q (snd z)) Z) eqn:X.
    - left. apply existsb_exists in X as (z & Hz & Hq). apply has_l_true in Hq as (a & Ha & Hq).
      apply perm_in_cons in Hz as [Z' P]. assert (H' := rep_perm _ _ _ _ _ P H).
      exists z, Z', a. split; [auto|split; [auto|split; [auto|split; [auto|split]]]].
      + apply hashL_ok; auto.
      + intros x Hx. destruct (rep_bij _ _ _ _ H') as (D & _).
        eapply (has_l_apart _ EL [snd z] (map snd Z')); eauto.
        * apply in_lefts. exists (snd z); split; [left|]; auto.
        * apply in_map; auto.
    - right. intros x Hx. rewrite existsb_false in X. apply (X x Hx).
  Qed.
  Lemma split_r : forall s c m Z q, Rep s c m Z ->
    (exists z Z' a, Permutation Z (z :: Z') /\ Rep s c m (z :: Z') /\
        op_get_right (snd z) = Some a /\ eqR E q a = true /\ hashR E s q = hashR E s a /\
        forall x, In x Z' -> has_r (eqR E) q (snd x) = false)
    \/ (forall x, In x Z -> has_r (eqR E) q (snd x) = false).
  Proof.
    intros s c m Z q H.
    destruct (existsb (fun z => has_r (eqR E) q (snd z)) Z) eqn:X.
    - left. apply existsb_exists in X as (z & Hz & Hq). apply has_r_true in Hq as (a & Ha & Hq).
      apply perm_in_cons in Hz as [Z' P]. assert (H' := rep_perm _ _ _ _ _ P H).
      exists z, Z', a. split; [auto|split; [auto|split; [auto|split; [auto|split]]]].
      + apply hashR_ok; auto.
      + intros x Hx. destruct (rep_bij _ _ _ _ H') as (_ & D & _).
        eapply (has_r_apart _ ER [snd z] (map snd Z')); eauto.
        * apply in_rights. exists (snd z); split; [left|]; auto.
        * apply in_map; auto.
    - right. intros x Hx. rewrite existsb_false in X. apply (X x Hx).
  Qed.

  Lemma rep_l_cons : forall s c m z Z a, Rep s c m (z :: Z) -> op_get_left (snd z) = Some a ->
    Permutation (slots (left_set m))
      ((hashL E s a, MP a (option_map (hashR E s) (op_get_right (snd z))) (fst z))
        :: flat_map (slotL s) Z).
  Proof.
    intros s c m z Z a H Ha. assert (P := rep_l _ _ _ _ H). simpl in P.
    unfold slotL in P at 1. rewrite Ha in P. exact P.
  Qed.
  Lemma rep_r_cons : forall s c m z Z a, Rep s c m (z :: Z) -> op_get_right (snd z) = Some a ->
    Permutation (slots (right_set m))
      ((hashR E s a, MP a (option_map (hashL E s) (op_get_left (snd z))) (fst z))
        :: flat_map (slotR s) Z).
  Proof.
    intros s c m z Z a H Ha. assert (P := rep_r _ _ _ _ H). simpl in P.
    unfold slotR in P at 1. rewrite Ha in P. exact P.
  Qed.
  Lemma left_absent : forall s c m Z q, Rep s c m Z ->
    (forall x, In x Z -> has_l (eqL E) q (snd x) = false) ->
    forall x, In x (slots (left_set m)) -> equivalent_key (eqL E) q (snd x) = false.
  Proof.
    intros s c m Z q H Hn x Hx. eapply key_l_other; eauto.
    eapply Permutation_in; [apply (rep_l _ _ _ _ H)|auto].
  Qed.
  Lemma right_absent : forall s c m Z q, Rep s c m Z ->
    (forall x, In x Z -> has_r (eqR E) q (snd x) = false) ->
    forall x, In x (slots (right_set m)) -> equivalent_key (eqR E) q (snd x) = false.
  Proof.
    intros s c m Z q H Hn x Hx. eapply key_r_other; eauto.
    eapply Permutation_in; [apply (rep_r _ _ _ _ H)|auto].
  Qed.

  (* ---- find / filter on the entry list ---- *)
  Lemma find_split : forall (p : entry -> bool) (Z : list zent) z Z', Permutation Z (z :: Z') ->
    p (snd z) = true -> (forall x, In x Z' -> p (snd x) = false) ->
    find p (map snd Z) = Some (snd z).
  Proof.
    intros p Z z Z' P Hz Hn.
    apply find_perm_unique with (Z' := map snd Z'); auto.
    - apply Permutation_map with (f := snd) in P. auto.
    - intros x Hx. apply in_map_iff in Hx as (y & <- & Hy); auto.
  Qed.
  Lemma find_absent : forall (p : entry -> bool) (Z : list zent),
    (forall x, In x Z -> p (snd x) = false) -> find p (map snd Z) = None.
  Proof.
    intros p Z H. apply find_all_false. intros x Hx. apply in_map_iff in Hx as (y & <- & Hy); auto.
  Qed.
  Lemma filter_del : forall (p : entry -> bool) (Z : list zent) z Z', Permutation Z (z :: Z') ->
    p (snd z) = true -> (forall x, In x Z' -> p (snd x) = false) ->
    Permutation (filter (fun x => negb (p x)) (map snd Z)) (map snd Z').
  Proof.
    intros p Z z Z' P Hz Hn.
    etransitivity; [apply filter_perm, Permutation_map, P|]. simpl. rewrite Hz. simpl.
    rewrite filter_all_true; auto. intros x Hx. apply in_map_iff in Hx as (y & <- & Hy).
    rewrite Hn; auto.
  Qed.
  Lemma filter_absent : forall (p : entry -> bool) (Z : list zent),
    (forall x, In x Z -> p (snd x) = false) ->
    filter (fun x => negb (p x)) (map snd Z) = map snd Z.
  Proof.
    intros p Z H. apply filter_all_true. intros x Hx. apply in_map_iff in Hx as (y & <- & Hy).
    rewrite H; auto.
  Qed.
  Lemma has_l_some : forall q (x : entry) a, op_get_left x = Some a -> eqL E q a = true -> has_l (eqL E) q x = true.
  Proof. unfold has_l; intros q x a -> ?; auto. Qed.
  Lemma has_r_some : forall q (x : entry) a, op_get_right x = Some a -> eqR E q a = true -> has_r (eqR E) q x = true.
  Proof. unfold has_r; intros q x a -> ?; auto. Qed.

  (* ---- read-only calls ---- *)
  (* borrowed forms of the keys *)
  Definition borrow_ok {Q T} (qhash : S -> Q -> N) (qeq : Q -> T -> bool)
      (hash : S -> T -> N) (eqT : T -> T -> bool) : Prop :=
    (forall s q t, qeq q t = true -> qhash s q = hash s t) /\
    (forall q t t', eqT t t' = true -> qeq q t = qeq q t') /\
    (forall q t t', qeq q t = true -> qeq q t' = true -> eqT t t' = true).

  Definition left_is {Q} (qeq : Q -> L -> bool) (q : Q) (x : entry) : bool :=
    match op_get_left x with Some a => qeq q a | None => false end.
  Definition right_is {Q} (qeq : Q -> R -> bool) (q : Q) (x : entry) : bool :=
    match op_get_right x with Some a => qeq q a | None => false end.

  Lemma get_right_q_spec : forall {Q} (qhash : S -> Q -> N) (qeq : Q -> L -> bool) s c m P q,
    borrow_ok qhash qeq (hashL E) (eqL E) -> Repr s c m P ->
    get_right_q E qhash qeq m q = bind_opt (find (left_is qeq q) P) op_get_right.
  Proof.
    intros Q qhash qeq s c m P q (B1 & B2 & B3) (Z & H & ->).
    unfold get_right_q. rewrite (rep_hb _ _ _ _ H).
    destruct (existsb (fun z => left_is qeq q (snd z)) Z) eqn:X.
    - apply existsb_exists in X as (z & Hz & Hq).
      apply perm_in_cons in Hz as [Z' P].
      unfold left_is in Hq. destruct (op_get_left (snd z)) as [a|] eqn:Ha; [|discriminate].
      assert (H' := rep_perm _ _ _ _ _ P H).
      assert (HN : forall x, In x Z' -> left_is qeq q (snd x) = false).
      { intros x Hx. unfold left_is. destruct (op_get_left (snd x)) as [b|] eqn:Hb; auto.
        destruct (qeq q b) eqn:Y; auto.
        destruct (rep_bij _ _ _ _ H') as (D & _).
        assert (F : has_l (eqL E) a (snd x) = false).
        { apply (has_l_apart _ EL [snd z] (map snd Z') a a); auto.
          - apply in_lefts. exists (snd z); split; [left|]; auto.
          - apply (equiv_refl _ EL).
          - apply in_map; auto. }
        unfold has_l in F. rewrite Hb in F. rewrite (B3 q a b) in F; auto. }
      rewrite (B1 s q a) by auto.
      erewrite t_get_unique; [|auto|apply (rep_l_cons _ _ _ _ _ _ H' Ha)|exact Hq|].
      2:{ intros x Hx. apply in_flat_map in Hx as (y & Hy & Hx). apply HN in Hy.
          unfold slotL in Hx. unfold left_is in Hy.
          destruct (op_get_left (snd y)); [destruct Hx as [<-|[]]; auto|easy]. }
      cbn [phash]. rewrite (find_split (left_is qeq q) Z z Z' P); auto.
      2:{ unfold left_is; rewrite Ha; auto. }
      simpl. destruct (op_get_right (snd z)) as [b|] eqn:Hb; simpl; auto.
      erewrite t_get_unique; [|auto|apply (rep_r_cons _ _ _ _ _ _ H' Hb)| |]; auto.
      + unfold hash_and_id; simpl. rewrite Ha. simpl. rewrite !N.eqb_refl; auto.
      + intros x Hx. apply hid_of_id. eapply id_r_other; eauto.
        apply ids_other. apply (rep_ids _ _ _ _ H').
    - rewrite existsb_false in X.
      rewrite t_get_absent.
      2:{ intros x Hx. eapply Permutation_in in Hx; [|apply (rep_l _ _ _ _ H)].
          apply in_flat_map in Hx as (y & Hy & Hx). apply X in Hy.
          unfold slotL in Hx. unfold left_is in Hy.
          destruct (op_get_left (snd y)); [destruct Hx as [<-|[]]; auto|easy]. }
      rewrite find_absent; auto.
  Qed.

  Lemma get_left_q_spec : forall {Q} (qhash : S -> Q -> N) (qeq : Q -> R -> bool) s c m P q,
    borrow_ok qhash qeq (hashR E) (eqR E) -> Repr s c m P ->
    get_left_q E qhash qeq m q = bind_opt (find (right_is qeq q) P) op_get_left.
  Proof.
    intros Q qhash qeq s c m P q (B1 & B2 & B3) (Z & H & ->).
    unfold get_left_q. rewrite (rep_hb _ _ _ _ H).
    destruct (existsb (fun z => right_is qeq q (snd z)) Z) eqn:X.
    - apply existsb_exists in X as (z & Hz & Hq).
      apply perm_in_cons in Hz as [Z' P].
      unfold right_is in Hq. destruct (op_get_right (snd z)) as [a|] eqn:Ha; [|discriminate].
      assert (H' := rep_perm _ _ _ _ _ P H).
      assert (HN : forall x, In x Z' -> right_is qeq q (snd x) = false).
      { intros x Hx. unfold right_is. destruct (op_get_right (snd x)) as [b|] eqn:Hb; auto.
        destruct (qeq q b) eqn:Y; auto.
        destruct (rep_bij _ _ _ _ H') as (_ & D & _).
        assert (F : has_r (eqR E) a (snd x) = false).
        { apply (has_r_apart _ ER [snd z] (map snd Z') a a); auto.
          - apply in_rights. exists (snd z); split; [left|]; auto.
          - apply (equiv_refl _ ER).
          - apply in_map; auto. }
        unfold has_r in F. rewrite Hb in F. rewrite (B3 q a b) in F; auto. }
      rewrite (B1 s q a) by auto.
      erewrite t_get_unique; [|auto|apply (rep_r_cons _ _ _ _ _ _ H' Ha)|exact Hq|].
      2:{ intros x Hx. apply in_flat_map in Hx as (y & Hy & Hx). apply HN in Hy.
          unfold slotR in Hx. unfold right_is in Hy.
          destruct (op_get_right (snd y)); [destruct Hx as [<-|[]]; auto|easy]. }
      cbn [phash]. rewrite (find_split (right_is qeq q) Z z Z' P); auto.
      2:{ unfold right_is; rewrite Ha; auto. }
      simpl. destruct (op_get_left (snd z)) as [b|] eqn:Hb; simpl; auto.
      erewrite t_get_unique; [|auto|apply (rep_l_cons _ _ _ _ _ _ H' Hb)| |]; auto.
      + unfold hash_and_id; simpl. rewrite Ha. simpl. rewrite !N.eqb_refl; auto.
      + intros x Hx. apply hid_of_id. eapply id_l_other; eauto.
        apply ids_other. apply (rep_ids _ _ _ _ H').
    - rewrite existsb_false in X.
      rewrite t_get_absent.
      2:{ intros x Hx. eapply Permutation_in in Hx; [|apply (rep_r _ _ _ _ H)].
          apply in_flat_map in Hx as (y & Hy & Hx). apply X in Hy.
          unfold slotR in Hx. unfold right_is in Hy.
          destruct (op_get_right (snd y)); [destruct Hx as [<-|[]]; auto|easy]. }
      rewrite find_absent; auto.
  Qed.

  Lemma borrow_self_l : borrow_ok (hashL E) (eqL E) (hashL E) (eqL E).
  Proof.
    repeat split.
    - intros; apply hashL_ok; auto.
    - intros; apply eqb_replace_r; auto.
    - intros q t t' A B. rewrite <- (eqb_replace_l _ EL q t t'); auto.
  Qed.
  Lemma borrow_self_r : borrow_ok (hashR E) (eqR E) (hashR E) (eqR E).
  Proof.
    repeat split.
    - intros; apply hashR_ok; auto.
    - intros; apply eqb_replace_r; auto.
    - intros q t t' A B. rewrite <- (eqb_replace_l _ ER q t t'); auto.
  Qed.
  Lemma get_right_spec : forall s c m P l, Repr s c m P ->
    get_right E m l = s_get_right (eqL E) P l.
  Proof. intros s c m P l H. apply (get_right_q_spec _ _ _ _ _ _ _ borrow_self_l H). Qed.
  Lemma get_left_spec : forall s c m P r, Repr s c m P ->
    get_left E m r = s_get_left (eqR E) P r.
  Proof. intros s c m P r H. apply (get_left_q_spec _ _ _ _ _ _ _ borrow_self_r H). Qed.

  Lemma left_get_found : forall s c m z Z a q, Rep s c m (z :: Z) -> op_get_left (snd z) = Some a ->
    eqL E q a = true -> (forall x, In x Z -> has_l (eqL E) q (snd x) = false) ->
    t_get (lo E) (left_set m) (hashL E s q) (equivalent_key (eqL E) q)
      = Some (MP a (option_map (hashR E s) (op_get_right (snd z))) (fst z)).
  Proof.
    intros s c m z Z a q H Ha Hq Hn. rewrite (hashL_ok _ OK s q a) by auto.
    eapply t_get_unique; [auto|apply (rep_l_cons _ _ _ _ _ _ H Ha)|exact Hq|].
    intros x Hx. eapply key_l_other; eauto.
  Qed.
  Lemma right_get_found : forall s c m z Z a q, Rep s c m (z :: Z) -> op_get_right (snd z) = Some a ->
    eqR E q a = true -> (forall x, In x Z -> has_r (eqR E) q (snd x) = false) ->
    t_get (lo E) (right_set m) (hashR E s q) (equivalent_key (eqR E) q)
      = Some (MP a (option_map (hashL E s) (op_get_left (snd z))) (fst z)).
  Proof.
    intros s c m z Z a q H Ha Hq Hn. rewrite (hashR_ok _ OK s q a) by auto.
    eapply t_get_unique; [auto|apply (rep_r_cons _ _ _ _ _ _ H Ha)|exact Hq|].
    intros x Hx. eapply key_r_other; eauto.
  Qed.

  (* existsb over the entries when only the entry z can match *)
  Lemma existsb_split : forall (p : entry -> bool) (Z : list zent) z Z', Permutation Z (z :: Z') ->
    (forall x, In x Z' -> p (snd x) = false) -> existsb p (map snd Z) = p (snd z).
  Proof.
    intros p Z z Z' P Hn. rewrite (existsb_perm _ _ _ (Permutation_map snd P)). simpl.
    replace (existsb p (map snd Z')) with false; [apply orb_false_r|].
    symmetry. apply existsb_false. intros x Hx. apply in_map_iff in Hx as (y & <- & Hy); auto.
  Qed.
  Lemma existsb_absent : forall (p : entry -> bool) (Z : list zent),
    (forall x, In x Z -> p (snd x) = false) -> existsb p (map snd Z) = false.
  Proof.
    intros p Z H. apply existsb_false. intros x Hx. apply in_map_iff in Hx as (y & <- & Hy); auto.
  Qed.

  Lemma left_get_bool : forall s c m P q, Repr s c m P ->
    is_some (t_get (lo E) (left_set m) (hashL E s q) (equivalent_key (eqL E) q))
    = s_contains_left (eqL E) P q.
  Proof.
    intros s c m P q (Z & H & ->). unfold s_contains_left.
    destruct (split_l _ _ _ _ q H) as [(z & Z' & a & P & H' & Ha & Hq & _ & Hn)|Hn].
    - erewrite left_get_found by eauto. rewrite (existsb_split _ Z z Z'); auto.
      symmetry. eapply has_l_some; eauto.
    - rewrite t_get_absent by (eapply left_absent; eauto). rewrite existsb_absent; auto.
  Qed.
  Lemma right_get_bool : forall s c m P q, Repr s c m P ->
    is_some (t_get (lo E) (right_set m) (hashR E s q) (equivalent_key (eqR E) q))
    = s_contains_right (eqR E) P q.
  Proof.
    intros s c m P q (Z & H & ->). unfold s_contains_right.
    destruct (split_r _ _ _ _ q H) as [(z & Z' & a & P & H' & Ha & Hq & _ & Hn)|Hn].
    - erewrite right_get_found by eauto. rewrite (existsb_split _ Z z Z'); auto.
      symmetry. eapply has_r_some; eauto.
    - rewrite t_get_absent by (eapply right_absent; eauto). rewrite existsb_absent; auto.
  Qed.
  Lemma contains_left_spec : forall s c m P l, Repr s c m P ->
    contains_left E m l = s_contains_left (eqL E) P l.
  Proof.
    intros s c m P l H. unfold contains_left. destruct H as (Z & H & ->).
    rewrite (rep_hb _ _ _ _ H). apply left_get_bool with (c := c). exists Z; auto.
  Qed.
  Lemma contains_right_spec : forall s c m P r, Repr s c m P ->
    contains_right E m r = s_contains_right (eqR E) P r.
  Proof.
    intros s c m P r H. unfold contains_right. destruct H as (Z & H & ->).
    rewrite (rep_hb _ _ _ _ H). apply right_get_bool with (c := c). exists Z; auto.
  Qed.

  Lemma is_left_paired_spec : forall s c m P l, Repr s c m P ->
    is_left_paired E m l = s_is_left_paired (eqL E) P l.
  Proof.
    intros s c m P q (Z & H & ->). unfold is_left_paired, s_is_left_paired.
    rewrite (rep_hb _ _ _ _ H).
    destruct (split_l _ _ _ _ q H) as [(z & Z' & a & P & H' & Ha & Hq & _ & Hn)|Hn].
    - erewrite left_get_found by eauto. rewrite (existsb_split _ Z z Z'); auto.
      + rewrite (has_l_some q (snd z) a) by auto. simpl.
        destruct (snd z); simpl in *; auto; discriminate.
      + intros x Hx. rewrite Hn; auto.
    - rewrite t_get_absent by (eapply left_absent; eauto). rewrite existsb_absent; auto.
      intros x Hx. rewrite Hn; auto.
  Qed.
  Lemma is_right_paired_spec : forall s c m P r, Repr s c m P ->
    is_right_paired E m r = s_is_right_paired (eqR E) P r.
  Proof.
    intros s c m P q (Z & H & ->). unfold is_right_paired, s_is_right_paired.
    rewrite (rep_hb _ _ _ _ H).
    destruct (split_r _ _ _ _ q H) as [(z & Z' & a & P & H' & Ha & Hq & _ & Hn)|Hn].
    - erewrite right_get_found by eauto. rewrite (existsb_split _ Z z Z'); auto.
      + rewrite (has_r_some q (snd z) a) by auto. simpl.
        destruct (snd z); simpl in *; auto; discriminate.
      + intros x Hx. rewrite Hn; auto.
    - rewrite t_get_absent by (eapply right_absent; eauto). rewrite existsb_absent; auto.
      intros x Hx. rewrite Hn; auto.
  Qed.

  Lemma are_paired_spec : forall s c m P l r, Repr s c m P ->
    are_paired E m l r = s_are_paired (eqL E) (eqR E) P l r.
  Proof.
    intros s c m P l r (Z & H & ->). unfold are_paired, s_are_paired.
    rewrite (rep_hb _ _ _ _ H).
    destruct (split_l _ _ _ _ l H) as [(z & Z' & a & P & H' & Ha & Hq & Hh & Hn)|Hn].
    - erewrite left_get_found by eauto.
      rewrite (existsb_split _ Z z Z' P) by (intros x Hx; rewrite Hn; auto).
      rewrite (has_l_some l (snd z) a) by auto. simpl.
      destruct (split_r _ _ _ _ r H') as [(w & W & b & P2 & H2 & Hb & Hr & Hhr & Hnr)|Hnr].
      + erewrite right_get_found by eauto. cbn [pid phash].
        destruct (has_r (eqR E) r (snd z)) eqn:X.
        * assert (w = z) as ->.
          { assert (IN : In z (w :: W)) by (eapply Permutation_in; [eauto|left; auto]).
            destruct IN as [->|IN]; auto. apply Hnr in IN. congruence. }
          rewrite Ha, Hb. simpl. rewrite Hh, Hhr, !N.eqb_refl. auto.
        * assert (fst z =? fst w = false) as ->; auto.
          apply N.eqb_neq. intro EQ.
          assert (IN : In w (z :: Z')) by (eapply Permutation_in; [symmetry; eauto|left; auto]).
          destruct IN as [->|IN].
          { erewrite has_r_some in X; eauto. discriminate. }
          exact (ids_other z Z' (rep_ids _ _ _ _ H') w IN (eq_sym EQ)).
      + rewrite t_get_absent by (eapply right_absent; eauto).
        symmetry. apply Hnr; left; auto.
    - rewrite t_get_absent by (eapply left_absent; eauto).
      rewrite existsb_absent; auto. intros x Hx. rewrite Hn; auto.
  Qed.

  (* ---- replacing some entries ---- *)
  Lemma rep_rebuild : forall s c c' m m' old new Z,
    Rep s c m (old ++ Z) -> hash_builder m' = s -> counter m' = c' -> c <= c' ->
    Permutation (slots (left_set m')) (flat_map (slotL s) new ++ flat_map (slotL s) Z) ->
    Permutation (slots (right_set m')) (flat_map (slotR s) new ++ flat_map (slotR s) Z) ->
    NoDup (map fst new) ->
    (forall i, In i (map fst new) -> In i (map fst old) \/ (c <= i /\ i < c')) ->
    partial_bijection (eqL E) (eqR E) (map snd new) ->
    (forall a, In a (lefts (map snd new)) -> forall x, In x Z -> has_l (eqL E) a (snd x) = false) ->
    (forall a, In a (rights (map snd new)) -> forall x, In x Z -> has_r (eqR E) a (snd x) = false) ->
    Rep s c' m' (new ++ Z).
  Proof.
    intros s c c' m m' old new Z H Hs Hc Hcc Pl Pr NI FI (DL & DR & NN) SL SR.
    destruct H as [? ? _ _ IDS LT (BL & BR & BN)]. rewrite map_app in *.
    assert (IDZ : NoDup (map fst Z) /\ forall i, In i (map fst old) -> ~ In i (map fst Z)).
    { clear - IDS. induction old; simpl in *; [split; auto|]. inversion IDS; subst.
      apply IHold in H2 as [A B]. split; auto. intros i [<-|Hi]; auto.
      intro. apply H1, in_app_iff; auto. }
    destruct IDZ as [IDZ AP].
    rewrite !lefts_app, !rights_app in *.
    constructor; auto.
    - rewrite flat_map_app; auto.
    - rewrite flat_map_app; auto.
    - rewrite map_app. clear - NI FI IDZ AP LT. induction (map fst new); simpl; auto.
      inversion NI; subst. constructor; auto.
      + rewrite in_app_iff. intros [I|I]; [auto|].
        destruct (FI a (or_introl eq_refl)) as [O|O]; [eapply AP; eauto|].
        apply in_map_iff in I as (z & <- & Hz).
        assert (fst z < c) by (apply LT, in_app_iff; auto). lia.
      + apply IHl; auto. intros i Hi. apply FI; right; auto.
    - intros z Hz. apply in_app_iff in Hz as [Hz|Hz].
      + destruct (FI (fst z)) as [O|O]; [apply in_map; auto| |lia].
        apply in_map_iff in O as (y & <- & Hy).
        assert (fst y < c) by (apply LT, in_app_iff; auto). lia.
      + assert (fst z < c) by (apply LT, in_app_iff; auto). lia.
    - split; [|split]; rewrite map_app.
      + rewrite lefts_app. apply distinct_app_intro; auto.
        * apply distinct_app in BL; tauto.
        * intros a b Ha Hb. apply in_lefts in Hb as (x & Hx & Hb).
          apply in_map_iff in Hx as (z & <- & Hz).
          specialize (SL a Ha z Hz). unfold has_l in SL. rewrite Hb in SL. auto.
      + rewrite rights_app. apply distinct_app_intro; auto.
        * apply distinct_app in BR; tauto.
        * intros a b Ha Hb. apply in_rights in Hb as (x & Hx & Hb).
          apply in_map_iff in Hx as (z & <- & Hz).
          specialize (SR a Ha z Hz). unfold has_r in SR. rewrite Hb in SR. auto.
      + rewrite in_app_iff. intros [I|I]; [auto|]. apply BN, in_app_iff; auto.
  Qed.

  (* items of the removed part are not held by the rest *)
  Lemma rep_apart_l : forall s c m old Z, Rep s c m (old ++ Z) ->
    forall a, In a (lefts (map snd old)) -> forall x, In x Z -> has_l (eqL E) a (snd x) = false.
  Proof.
    intros s c m old Z H a Ha x Hx. destruct (rep_bij _ _ _ _ H) as (D & _). rewrite map_app in D.
    eapply (has_l_apart _ EL (map snd old) (map snd Z)); eauto.
    - apply (equiv_refl _ EL).
    - apply in_map; auto.
  Qed.
  Lemma rep_apart_r : forall s c m old Z, Rep s c m (old ++ Z) ->
    forall a, In a (rights (map snd old)) -> forall x, In x Z -> has_r (eqR E) a (snd x) = false.
  Proof.
    intros s c m old Z H a Ha x Hx. destruct (rep_bij _ _ _ _ H) as (_ & D & _). rewrite map_app in D.
    eapply (has_r_apart _ ER (map snd old) (map snd Z)); eauto.
    - apply (equiv_refl _ ER).
    - apply in_map; auto.
  Qed.

  Lemma pb_nil : partial_bijection (eqL E) (eqR E) [].
  Proof. split; [|split]; simpl; auto; apply distinct_nil. Qed.

  Lemma rep_tail : forall s c m m' old Z, Rep s c m (old ++ Z) ->
    hash_builder m' = hash_builder m -> counter m' = counter m ->
    Permutation (slots (left_set m')) (flat_map (slotL s) Z) ->
    Permutation (slots (right_set m')) (flat_map (slotR s) Z) ->
    Rep s c m' Z.
  Proof.
    intros s c m m' old Z H Hh Hc Pl Pr. assert (H0 := H). destruct H0.
    eapply (rep_rebuild s c c m m' old []); try congruence; try lia; auto.
    - constructor.
    - intros i [].
    - apply pb_nil.
    - intros a [].
    - intros a [].
  Qed.
End Proofs.
