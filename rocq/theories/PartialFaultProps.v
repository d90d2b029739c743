(* PartialCycleMap when the Hash or Eq of the items panics: properties C93, C94. *)
From Coq Require Import List NArith Lia Bool Permutation PeanoNat.
From Verif Require Import Closures Prelude RawTable Optionals PartialCycleMap ListFacts TableFacts SoundTables
  PartialSpec PartialHistory PartialProofs PartialProofs2 PartialProofs3 PartialProofs4 PartialProofs5
  PartialProofs6 PartialHistoryProofs Concrete PartialProps PartialProps2 PartialAny Capacity PartialCapacity
  Faults FaultTables PartialFault PartialFaultProofs.
Import ListNotations.
Open Scope N_scope.

(* calls that neither add an item nor change the capacity *)
Definition adds_nothing {L R} (o : op L R) : bool :=
  match o with
  | Insert _ _ | InsertLeft _ | InsertRight _ | SwapLeft _ _ | SwapLeftChecked _ _ _ | SwapLeftOrInsert _ _ _
  | SwapRight _ _ | SwapRightChecked _ _ _ | SwapRightOrInsert _ _ _ | ExtendPairs _ | Extend _
  | ShrinkToLeft _ | ShrinkToRight _ | ShrinkToFit | ReserveLeft _ | ReserveRight _
  | TryReserveLeft _ | TryReserveRight _ => false
  | _ => true
  end.

(* The contents a panic of user code may leave, as a relation on lists of entries. *)
Section PanicSpec.
  Context {L R : Type} (eL : L -> L -> bool) (eR : R -> R -> bool).
  Notation entry := (optional_pair L R).
  Notation entries := (list (optional_pair L R)).

  (* inserting an entry: all as before, or without the entries it was to replace *)
  Definition s_half_insert (P : entries) (e : entry) (P' : entries) : Prop :=
    match e with
    | Neither => False
    | SomeLeft l => P' = P \/ P' = del_l eL P l
    | SomeRight r => P' = P \/ P' = del_r eR P r
    | SomeBoth l r => P' = P \/ P' = del_l eL P l \/ P' = del_r eR (del_l eL P l) r
    end.
  Definition s_half_extend (P : entries) (xs : entries) (P' : entries) : Prop :=
    exists done_ e todo, xs = done_ ++ e :: todo /\ s_half_insert (fold_left (s_insert_entry eL eR) done_ P) e P'.
  Definition s_panicked (P : entries) (o : op L R) (P' : entries) : Prop :=
    match o with
    | Insert l r => s_half_insert P (SomeBoth l r) P'
    | InsertLeft l => s_half_insert P (SomeLeft l) P'
    | InsertRight r => s_half_insert P (SomeRight r) P'
    | ExtendPairs xs => s_half_extend P (map (fun p => SomeBoth (fst p) (snd p)) xs) P'
    | Extend xs => s_half_extend P xs P'
    | SwapLeft old new | SwapLeftChecked old _ new => P' = P \/ P' = s_swap_left_base eL P old new
    | SwapRight old new | SwapRightChecked old _ new => P' = P \/ P' = s_swap_right_base eR P old new
    | SwapLeftOrInsert old new r =>
        P' = P \/ P' = s_swap_left_base eL P old new \/ s_half_insert P (SomeBoth new r) P'
    | SwapRightOrInsert old new l =>
        P' = P \/ P' = s_swap_right_base eR P old new \/ s_half_insert P (SomeBoth l new) P'
    | _ => P' = P
    end.

  (* histories in which calls may panic *)
  Inductive f_run : entries -> list (op L R * fuse) -> entries -> list (out L R) -> Prop :=
  | f_run_nil : forall P, f_run P [] P []
  | f_run_step : forall P o w P1 a ops P2 as_,
      s_step eL eR P o P1 a -> f_run P1 ops P2 as_ -> f_run P ((o, w) :: ops) P2 (a :: as_)
  | f_run_panic : forall P o w P1 ops P2 as_,
      w <> None -> s_panicked P o P1 -> f_run P1 ops P2 as_ -> f_run P ((o, w) :: ops) P2 (OPanic :: as_).
End PanicSpec.

Section Props.
  Context {L R S : Type}.
  Variable E : env L R S.
  Hypothesis OK : lawful E.
  Variable F : fault.
  Notation map := (pmap L R S).
  Notation entry := (optional_pair L R).
  Notation s_panicked := (s_panicked (eqL E) (eqR E)).
  Notation s_half_insert := (s_half_insert (eqL E) (eqR E)).
  Notation s_half_extend := (s_half_extend (eqL E) (eqR E)).
  Notation f_run := (f_run (eqL E) (eqR E)).

  (* ---- C93 ---- a call that adds nothing is atomic: if user code panics in it, the map is
     the same as before the call, bit by bit.  Any map, any order of calls of user code. *)
  Theorem C93_atomic : forall m o w, adds_nothing o = true ->
    u_step E F m o w = step E m o \/ (w <> None /\ u_step E F m o w = (m, OPanic)).
  Proof.
    intros m o w A. destruct (u_step_cases E F m o w) as [?|(N & m' & Q & H)]; [left; auto|].
    right. split; auto. destruct o; try discriminate A; cbn [P_step] in H; subst; auto.
  Qed.
  (* ==: what map_eq says, or a panic *)
  Theorem C93_eq : forall m m' w,
    (exists w', u_map_eq E m m' w = inner (map_eq E m m') w') \/ (w <> None /\ u_map_eq E m m' w = Panic None).
  Proof.
    intros m m' w. destruct (ag_map_eq E m m' w) as [(w' & _ & H)|H]; [left; eauto|right; auto].
  Qed.
  (* nothing of this is needed when user code returns *)
  Theorem C93_calm : forall m o, u_step E F m o None = step E m o.
  Proof. intros m o. apply u_step_calm. Qed.

  (* ---- C94: calls that add items, when the tables have room for them ---- *)
  Definition room (k : N) (m : map) : Prop := room_for (lo E) k (left_set m) /\ room_for (lo E) k (right_set m).
  (* swap_left(old, new) in which user code may panic without harm: old is absent, or the left
     table has room and old is unpaired or equal to new *)
  Definition sheltered_l (m : map) (old new : L) : Prop :=
    contains_left E m old = false \/
    ((eqL E new old = true \/ is_left_paired E m old = false) /\ room_for (lo E) 1 (left_set m)).
  Definition sheltered_r (m : map) (old new : R) : Prop :=
    contains_right E m old = false \/
    ((eqR E new old = true \/ is_right_paired E m old = false) /\ room_for (lo E) 1 (right_set m)).
  (* calls in which user code may panic without harm *)
  Definition sheltered (m : map) (o : op L R) : Prop :=
    match o with
    | Insert _ _ => room 1 m
    | InsertLeft _ => room_for (lo E) 1 (left_set m)
    | InsertRight _ => room_for (lo E) 1 (right_set m)
    | ExtendPairs xs => room (N.of_nat (length xs)) m
    | Extend xs => room (N.of_nat (length xs)) m
    | SwapLeft old new | SwapLeftChecked old _ new => sheltered_l m old new
    | SwapRight old new | SwapRightChecked old _ new => sheltered_r m old new
    | SwapLeftOrInsert old new _ => sheltered_l m old new /\ room 1 m
    | SwapRightOrInsert old new _ => sheltered_r m old new /\ room 1 m
    | ReserveLeft n | TryReserveLeft n => room_for (lo E) n (left_set m)
    | ReserveRight n | TryReserveRight n => room_for (lo E) n (right_set m)
    | _ => True
    end.
  (* a history whose calls return, except where sheltered; [guard] as in PartialHistory.v *)
  Fixpoint f_guarded (m : map) (ops : list (op L R * fuse)) : Prop :=
    match ops with
    | [] => True
    | (o, w) :: t => guard E m o /\ (w = None \/ sheltered m o) /\ f_guarded (fst (u_step E F m o w)) t
    end.

  Section Roomy.
  Hypothesis CO : capacity_ok (lo E).
  Hypothesis CA : calm_ok (lo E).
  Notation costs := (costs (lo E) (@left_set L R S) (@right_set L R S)).
  Notation at_cost := (at_cost (lo E) (@left_set L R S) (@right_set L R S)).

  Lemma room_l_costs : forall i j k m m', costs i j m m' ->
    room_for (lo E) (i + k) (left_set m) -> room_for (lo E) k (left_set m').
  Proof. intros i j k m m' [U1 U2] H. eapply room_uses; eauto. Qed.
  Lemma room_r_costs : forall i j k m m', costs i j m m' ->
    room_for (lo E) (j + k) (right_set m) -> room_for (lo E) k (right_set m').
  Proof. intros i j k m m' [U1 U2] H. eapply room_uses; eauto. Qed.
  Lemma ret_cost : forall {X} (c : M map X) a b m m' x, at_cost a b c -> c m = Ret m' x -> costs a b m m'.
  Proof. intros X c a b m m' x H Q. specialize (H m). rewrite Q in H. exact H. Qed.
  Lemma room_1 : forall k m, room (1 + k) m -> room 1 m.
  Proof. intros k m [H1 H2]. split; (eapply room_less; [|eassumption]; lia). Qed.

  Lemma insert_panic : forall s c m P l r m', Repr E s c m P -> room 1 m ->
    P_insert E F l r m m' -> exists P', s_half_insert P (SomeBoth l r) P' /\ Repr E s c m' P'.
  Proof.
    intros s c m P l r m' H [RML RMR] [->|[(a & Q)|(m1 & a & m2 & b & Q1 & Q2 & K)]].
    - exists P. split; [left; auto|auto].
    - destruct (remove_via_left_ok E OK s c m P l H) as (m1 & Q1 & H1). rewrite Q in Q1. inversion Q1; subst.
      exists (del_l (eqL E) P l). split; [right; left; auto|auto].
    - destruct (remove_via_left_ok E OK s c m P l H) as (m1' & Q1' & H1). rewrite Q1 in Q1'. inversion Q1'; subst.
      destruct (remove_via_right_ok E OK s c _ _ r H1) as (m2' & Q2' & H2). rewrite Q2 in Q2'. inversion Q2'; subst.
      pose proof (ret_cost _ _ _ _ _ _ (rvl_cost E CO l) Q1) as U1.
      pose proof (ret_cost _ _ _ _ _ _ (rvr_cost E CO r) Q2) as U2.
      pose proof (room_l_costs _ _ _ _ _ U2 (room_l_costs _ _ _ _ _ U1 RML)) as RL.
      pose proof (room_r_costs _ _ _ _ _ U2 (room_r_costs _ _ _ _ _ U1 RMR)) as RR.
      destruct K as [->|(m3 & Q3 & K)]; [exists (del_r (eqR E) (del_l (eqL E) P l) r); split; [right; right; auto|auto]|].
      exfalso. unfold incr_counter, bind, getst, putst in Q3.
      destruct (u64_incr _ _); [|discriminate]. simpl in Q3. inversion Q3; subst m3. clear Q3.
      destruct K as [(t & SP & _)|(m4 & Q4 & t & SP & _)].
      + eapply calm_insertion in SP; eauto.
      + unfold left_insert, bind, getst, putst in Q4. inversion Q4; subst m4.
        eapply calm_insertion in SP; eauto.
  Qed.
  Lemma insert_left_panic : forall s c m P l m', Repr E s c m P -> room_for (lo E) 1 (left_set m) ->
    P_insert_left E F l m m' -> exists P', s_half_insert P (SomeLeft l) P' /\ Repr E s c m' P'.
  Proof.
    intros s c m P l m' H RM [->|(m1 & a & Q1 & K)].
    - exists P. split; [left; auto|auto].
    - destruct (remove_via_left_ok E OK s c m P l H) as (m1' & Q1' & H1). rewrite Q1 in Q1'. inversion Q1'; subst.
      pose proof (room_l_costs _ _ _ _ _ (ret_cost _ _ _ _ _ _ (rvl_cost E CO l) Q1) RM) as RL.
      destruct K as [->|(m2 & Q2 & t & SP & _)]; [exists (del_l (eqL E) P l); split; [right; auto|auto]|].
      exfalso. unfold incr_counter, bind, getst, putst in Q2.
      destruct (u64_incr _ _); [|discriminate]. simpl in Q2. inversion Q2; subst m2.
      eapply calm_insertion in SP; eauto.
  Qed.
  Lemma insert_right_panic : forall s c m P r m', Repr E s c m P -> room_for (lo E) 1 (right_set m) ->
    P_insert_right E F r m m' -> exists P', s_half_insert P (SomeRight r) P' /\ Repr E s c m' P'.
  Proof.
    intros s c m P r m' H RM [->|(m1 & a & Q1 & K)].
    - exists P. split; [left; auto|auto].
    - destruct (remove_via_right_ok E OK s c m P r H) as (m1' & Q1' & H1). rewrite Q1 in Q1'. inversion Q1'; subst.
      pose proof (room_r_costs _ _ _ _ _ (ret_cost _ _ _ _ _ _ (rvr_cost E CO r) Q1) RM) as RR.
      destruct K as [->|(m2 & Q2 & t & SP & _)]; [exists (del_r (eqR E) P r); split; [right; auto|auto]|].
      exfalso. unfold incr_counter, bind, getst, putst in Q2.
      destruct (u64_incr _ _); [|discriminate]. simpl in Q2. inversion Q2; subst m2.
      eapply calm_insertion in SP; eauto.
  Qed.

  Lemma repr_hb : forall s c m P, Repr E s c m P -> hash_builder m = s.
  Proof. intros s c m P (Z & H & _). apply (rep_hb _ _ _ _ _ H). Qed.
  Lemma modify_same : forall {A} (t : table A) i h e f, nth_error (slots t) i = Some (h, e) -> f e = e ->
    Permutation (slots (t_modify t i f)) (slots t).
  Proof.
    intros A t i h e f N Q. pose proof (remove_nth_perm _ _ _ N) as P.
    etransitivity; [eapply t_modify_perm; eauto|]. rewrite Q. symmetry. exact P.
  Qed.
  Lemma base_absent_l : forall (p : entry -> bool) P old new, existsb p P = false ->
    existsb p (s_swap_left_base (eqL E) P old new) = false.
  Proof.
    intros p P old new H. rewrite existsb_false in *. intros x Hx. apply H.
    unfold s_swap_left_base in Hx. destruct (eqL E new old); auto. apply filter_In in Hx as [? _]; auto.
  Qed.
  Lemma base_absent_r : forall (p : entry -> bool) P old new, existsb p P = false ->
    existsb p (s_swap_right_base (eqR E) P old new) = false.
  Proof.
    intros p P old new H. rewrite existsb_false in *. intros x Hx. apply H.
    unfold s_swap_right_base in Hx. destruct (eqR E new old); auto. apply filter_In in Hx as [? _]; auto.
  Qed.
  (* the partner's entry already holds the hash to be written *)
  Lemma repoint_same_r : forall h lp m m2, repoint_r E h h lp m = Ret m2 tt ->
    hash_builder m2 = hash_builder m /\ counter m2 = counter m /\
    left_set m2 = left_set m /\ Permutation (slots (right_set m2)) (slots (right_set m)).
  Proof.
    intros h lp m m2 Q. unfold repoint_r in Q. destruct (phash lp) as [hh|]; [|inversion Q; subst; auto].
    unfold t_get_mut, bind, getst in Q. destruct (t_find _ _ _ _) as [i|] eqn:FI; [|discriminate].
    apply t_find_some in FI as (h' & x & N & PX). unfold t_entry in Q. rewrite N in Q. simpl in Q.
    unfold right_assign, bind, getst, putst in Q. inversion Q; subst m2. simpl. repeat split; auto.
    eapply modify_same; eauto. unfold hash_and_id in PX. apply andb_true_iff in PX as [_ PX].
    destruct x as [v [h2|] i2]; simpl in *; [|discriminate]. apply N.eqb_eq in PX as ->. reflexivity.
  Qed.
  Lemma repoint_same_l : forall h rp m m2, repoint_l E h h rp m = Ret m2 tt ->
    hash_builder m2 = hash_builder m /\ counter m2 = counter m /\
    right_set m2 = right_set m /\ Permutation (slots (left_set m2)) (slots (left_set m)).
  Proof.
    intros h lp m m2 Q. unfold repoint_l in Q. destruct (phash lp) as [hh|]; [|inversion Q; subst; auto].
    unfold t_get_mut, bind, getst in Q. destruct (t_find _ _ _ _) as [i|] eqn:FI; [|discriminate].
    apply t_find_some in FI as (h' & x & N & PX). unfold t_entry in Q. rewrite N in Q. simpl in Q.
    unfold left_assign, bind, getst, putst in Q. inversion Q; subst m2. simpl. repeat split; auto.
    eapply modify_same; eauto. unfold hash_and_id in PX. apply andb_true_iff in PX as [_ PX].
    destruct x as [v [h2|] i2]; simpl in *; [|discriminate]. apply N.eqb_eq in PX as ->. reflexivity.
  Qed.

  Lemma swap_left_panic : forall s c m P old new m', Repr E s c m P -> sheltered_l m old new ->
    P_swap_left E F old new m m' ->
    exists P', (P' = P \/ P' = s_swap_left_base (eqL E) P old new) /\ Repr E s c m' P'.
  Proof.
    intros s c m P old new m' H SH [->|(m1 & a & Q1 & K)]; [exists P; auto|].
    destruct (swap_left_eq_check_ok E OK s c m P old new H) as (m1' & Q1' & H1).
    rewrite (repr_hb _ _ _ _ H) in Q1. pose proof Q1 as U1. rewrite Q1 in Q1'. inversion Q1'; subst m1' a. clear Q1'.
    apply (ret_cost _ _ _ _ _ _ (eqcl_cost E CO old new (hashL E s new))) in U1.
    exists (s_swap_left_base (eqL E) P old new). split; auto.
    destruct K as [->|(lp & m2 & G & RP & K)]; [auto|].
    destruct SH as [SH|[EQ RM]].
    { exfalso. rewrite (contains_left_spec E OK s c m P) in SH by auto.
      pose proof (left_get_bool E OK s c m1 _ old H1) as B.
      rewrite (repr_hb _ _ _ _ H1) in G. rewrite G in B. unfold s_contains_left in *.
      rewrite base_absent_l in B by auto. discriminate. }
    assert (X : hash_builder m2 = hash_builder m1 /\ counter m2 = counter m1 /\
      left_set m2 = left_set m1 /\ Permutation (slots (right_set m2)) (slots (right_set m1))).
    { destruct EQ as [EQ|UP].
      - rewrite (repr_hb _ _ _ _ H) in RP. rewrite (repr_hb _ _ _ _ H1) in RP.
        rewrite (hashL_ok E OK s _ _ EQ) in RP. eapply repoint_same_r; eauto.
      - assert (PH : phash lp = None).
        { rewrite (is_left_paired_spec E OK s c m P) in UP by auto. unfold s_is_left_paired in UP.
          apply (base_absent_l _ P old new) in UP.
          pose proof (is_left_paired_spec E OK s c m1 _ old H1) as B. unfold s_is_left_paired in B.
          rewrite UP in B. unfold is_left_paired in B. rewrite G in B. destruct (phash lp); [discriminate|auto]. }
        unfold repoint_r in RP. rewrite PH in RP. inversion RP; subst; auto. }
    destruct X as (X1 & X2 & X3 & X4).
    destruct K as [->|(m3 & e & Q3 & t & SP & _)].
    - eapply (repr_tables E s c m1); eauto. rewrite X3. auto.
    - exfalso. eapply calm_insertion in SP; eauto.
      eapply room_l_costs; [exact (ret_cost _ _ _ _ _ _ (l_remove_cost E CO _ _) Q3)|].
      rewrite X3. eapply room_l_costs; [exact U1|exact RM].
  Qed.
  Lemma swap_right_panic : forall s c m P old new m', Repr E s c m P -> sheltered_r m old new ->
    P_swap_right E F old new m m' ->
    exists P', (P' = P \/ P' = s_swap_right_base (eqR E) P old new) /\ Repr E s c m' P'.
  Proof.
    intros s c m P old new m' H SH [->|(m1 & a & Q1 & K)]; [exists P; auto|].
    destruct (swap_right_eq_check_ok E OK s c m P old new H) as (m1' & Q1' & H1).
    rewrite (repr_hb _ _ _ _ H) in Q1. pose proof Q1 as U1. rewrite Q1 in Q1'. inversion Q1'; subst m1' a. clear Q1'.
    apply (ret_cost _ _ _ _ _ _ (eqcr_cost E CO old new (hashR E s new))) in U1.
    exists (s_swap_right_base (eqR E) P old new). split; auto.
    destruct K as [->|(lp & m2 & G & RP & K)]; [auto|].
    destruct SH as [SH|[EQ RM]].
    { exfalso. rewrite (contains_right_spec E OK s c m P) in SH by auto.
      pose proof (right_get_bool E OK s c m1 _ old H1) as B.
      rewrite (repr_hb _ _ _ _ H1) in G. rewrite G in B. unfold s_contains_right in *.
      rewrite base_absent_r in B by auto. discriminate. }
    assert (X : hash_builder m2 = hash_builder m1 /\ counter m2 = counter m1 /\
      right_set m2 = right_set m1 /\ Permutation (slots (left_set m2)) (slots (left_set m1))).
    { destruct EQ as [EQ|UP].
      - rewrite (repr_hb _ _ _ _ H) in RP. rewrite (repr_hb _ _ _ _ H1) in RP.
        rewrite (hashR_ok E OK s _ _ EQ) in RP. eapply repoint_same_l; eauto.
      - assert (PH : phash lp = None).
        { rewrite (is_right_paired_spec E OK s c m P) in UP by auto. unfold s_is_right_paired in UP.
          apply (base_absent_r _ P old new) in UP.
          pose proof (is_right_paired_spec E OK s c m1 _ old H1) as B. unfold s_is_right_paired in B.
          rewrite UP in B. unfold is_right_paired in B. rewrite G in B. destruct (phash lp); [discriminate|auto]. }
        unfold repoint_l in RP. rewrite PH in RP. inversion RP; subst; auto. }
    destruct X as (X1 & X2 & X3 & X4).
    destruct K as [->|(m3 & e & Q3 & t & SP & _)].
    - eapply (repr_tables E s c m1); eauto. rewrite X3. auto.
    - exfalso. eapply calm_insertion in SP; eauto.
      eapply room_r_costs; [exact (ret_cost _ _ _ _ _ _ (r_remove_cost E CO _ _) Q3)|].
      rewrite X3. eapply room_r_costs; [exact U1|exact RM].
  Qed.

  (* a panic in the first insertion, or later *)
  Lemma half_here : forall P e xs P', s_half_insert P e P' -> s_half_extend P (e :: xs) P'.
  Proof. intros P e xs P' H. exists [], e, xs. auto. Qed.
  Lemma half_later : forall P e xs P', s_half_extend (s_insert_entry (eqL E) (eqR E) P e) xs P' ->
    s_half_extend P (e :: xs) P'.
  Proof. intros P e xs P' (d & x & t & -> & H). exists (e :: d), x, t. auto. Qed.
  Lemma room_after : forall {X} (c : M map X) i j k m m' x, at_cost i j c -> i <= 1 -> j <= 1 ->
    c m = Ret m' x -> room (1 + k) m -> room k m'.
  Proof.
    intros X c i j k m m' x HC I J Q [R1 R2]. apply (ret_cost _ _ _ _ _ _ HC) in Q. split.
    - eapply room_l_costs; [exact Q|]. eapply room_less; [|exact R1]. lia.
    - eapply room_r_costs; [exact Q|]. eapply room_less; [|exact R2]. lia.
  Qed.
  Lemma extend_panic : forall xs s c m P m', Repr E s c m P -> c + N.of_nat (length xs) < two64 ->
    room (N.of_nat (length xs)) m -> P_extend E F xs m m' ->
    exists P' c', s_half_extend P xs P' /\ Repr E s c' m' P' /\ c' <= c + N.of_nat (length xs).
  Proof.
    induction xs as [|e xs IH]; cbn [length P_extend]; intros s c m P m' H B RM K; [destruct K|].
    rewrite Nat2N.inj_succ in *. rewrite <- N.add_1_l in *. pose proof (room_1 _ _ RM) as RM1.
    destruct e as [|l|r|l r].
    - destruct (IH s c m P m' H) as (P' & c' & HP & H' & C'); [lia| |auto|].
      { destruct RM; split; (eapply room_less; [|eassumption]; lia). }
      exists P', c'. repeat split; auto; [|lia]. apply half_later. exact HP.
    - destruct K as [K|(m1 & d & Q & K)].
      + destruct (insert_left_panic s c m P l m' H) as (P' & HP & H'); auto; [apply RM1|].
        exists P', c. repeat split; auto; [|lia]. apply half_here; auto.
      + destruct (insert_left_ok E OK s c m P l H) as (m1' & Q' & H1); [lia|]. pose proof Q as U. rewrite Q in Q'. inversion Q'; subst m1' d.
        destruct (IH s (c + 1) m1 _ m' H1) as (P' & c' & HP & H' & C'); [lia| |auto|].
        * eapply (room_after (insert_left E l) 1 0); eauto; try lia. apply (insert_left_cost E (lo_ok E OK) CO).
        * exists P', c'. repeat split; auto; [|lia]. apply half_later. exact HP.
    - destruct K as [K|(m1 & d & Q & K)].
      + destruct (insert_right_panic s c m P r m' H) as (P' & HP & H'); auto; [apply RM1|].
        exists P', c. repeat split; auto; [|lia]. apply half_here; auto.
      + destruct (insert_right_ok E OK s c m P r H) as (m1' & Q' & H1); [lia|]. pose proof Q as U. rewrite Q in Q'. inversion Q'; subst m1' d.
        destruct (IH s (c + 1) m1 _ m' H1) as (P' & c' & HP & H' & C'); [lia| |auto|].
        * eapply (room_after (insert_right E r) 0 1); eauto; try lia. apply (insert_right_cost E (lo_ok E OK) CO).
        * exists P', c'. repeat split; auto; [|lia]. apply half_later. exact HP.
    - destruct K as [K|(m1 & d & Q & K)].
      + destruct (insert_panic s c m P l r m' H) as (P' & HP & H'); auto.
        exists P', c. repeat split; auto; [|lia]. apply half_here; auto.
      + destruct (insert_ok E OK s c m P l r H) as (m1' & Q' & H1); [lia|]. pose proof Q as U. rewrite Q in Q'. inversion Q'; subst m1' d.
        destruct (IH s (c + 1) m1 _ m' H1) as (P' & c' & HP & H' & C'); [lia| |auto|].
        * eapply (room_after (insert E l r) 1 1); eauto; try lia. apply (insert_cost E (lo_ok E OK) CO).
        * exists P', c'. repeat split; auto; [|lia]. apply half_later. exact HP.
  Qed.
  Lemma extend_pairs_panic : forall xs s c m P m', Repr E s c m P -> c + N.of_nat (length xs) < two64 ->
    room (N.of_nat (length xs)) m -> P_extend_pairs E F xs m m' ->
    exists P' c', s_half_extend P (List.map (fun p => SomeBoth (fst p) (snd p)) xs) P' /\
                  Repr E s c' m' P' /\ c' <= c + N.of_nat (length xs).
  Proof.
    induction xs as [|[l r] xs IH]; cbn [length P_extend_pairs List.map fst snd]; intros s c m P m' H B RM K; [destruct K|].
    rewrite Nat2N.inj_succ in *. rewrite <- N.add_1_l in *. pose proof (room_1 _ _ RM) as RM1.
    destruct K as [K|(m1 & d & Q & K)].
    - destruct (insert_panic s c m P l r m' H) as (P' & HP & H'); auto.
      exists P', c. repeat split; auto; [|lia]. apply half_here; auto.
    - destruct (insert_ok E OK s c m P l r H) as (m1' & Q' & H1); [lia|]. pose proof Q as U. rewrite Q in Q'. inversion Q'; subst m1' d.
      destruct (IH s (c + 1) m1 _ m' H1) as (P' & c' & HP & H' & C'); [lia| |auto|].
      + eapply (room_after (insert E l r) 1 1); eauto; try lia. apply (insert_cost E (lo_ok E OK) CO).
      + exists P', c'. repeat split; auto; [|lia]. apply half_later. exact HP.
  Qed.
  (* shrinking works on a new allocation *)
  Lemma shrink_l_panic : forall s c m P n m', Repr E s c m P -> lost_l E F (CSize (Shrink n)) m m' -> Repr E s c m' P.
  Proof.
    intros s c m P n m' H (t & (_ & _ & SP) & ->). cbn in SP. subst t. apply (repr_tables E s c m); auto.
  Qed.
  Lemma shrink_r_panic : forall s c m P n m', Repr E s c m P -> lost_r E F (CSize (Shrink n)) m m' -> Repr E s c m' P.
  Proof.
    intros s c m P n m' H (t & (_ & _ & SP) & ->). cbn in SP. subst t. apply (repr_tables E s c m); auto.
  Qed.

  Lemma step_panic : forall s c m P o m', Repr E s c m P -> c + ids o < two64 -> sheltered m o ->
    P_step E F o m m' -> exists P' c', s_panicked P o P' /\ Repr E s c' m' P' /\ c' <= c + ids o.
  Proof.
    intros s c m P o m' H B SH K.
    destruct o; cbn [P_step sheltered ids PartialFaultProps.s_panicked] in *;
      try (subst m'; exists P, c; repeat split; auto; lia).
    - destruct (insert_panic s c m P l r m' H SH K) as (P' & HP & H'). exists P', c. repeat split; auto; lia.
    - destruct (insert_left_panic s c m P l m' H SH K) as (P' & HP & H'). exists P', c. repeat split; auto; lia.
    - destruct (insert_right_panic s c m P r m' H SH K) as (P' & HP & H'). exists P', c. repeat split; auto; lia.
    - destruct (swap_left_panic s c m P old new m' H SH K) as (P' & HP & H'). exists P', c. repeat split; auto; lia.
    - destruct (swap_left_panic s c m P old new m' H SH K) as (P' & HP & H'). exists P', c. repeat split; auto; lia.
    - destruct SH as [SH RM]. destruct K as [K|K].
      + destruct (swap_left_panic s c m P old new m' H SH K) as (P' & HP & H').
        exists P', c. repeat split; auto; [tauto|lia].
      + destruct (insert_panic s c m P new to_insert m' H RM K) as (P' & HP & H'). exists P', c. repeat split; auto; lia.
    - destruct (swap_right_panic s c m P old new m' H SH K) as (P' & HP & H'). exists P', c. repeat split; auto; lia.
    - destruct (swap_right_panic s c m P old new m' H SH K) as (P' & HP & H'). exists P', c. repeat split; auto; lia.
    - destruct SH as [SH RM]. destruct K as [K|K].
      + destruct (swap_right_panic s c m P old new m' H SH K) as (P' & HP & H').
        exists P', c. repeat split; auto; [tauto|lia].
      + destruct (insert_panic s c m P to_insert new m' H RM K) as (P' & HP & H'). exists P', c. repeat split; auto; lia.
    - destruct (extend_pairs_panic xs s c m P m' H) as (P' & c' & HP & H' & C'); auto. exists P', c'. auto.
    - destruct (extend_panic xs s c m P m' H) as (P' & c' & HP & H' & C'); auto. exists P', c'. auto.
    - exists P, c. repeat split; [|lia]. eapply shrink_l_panic; eauto.
    - exists P, c. repeat split; [|lia]. eapply shrink_r_panic; eauto.
    - exists P, c. repeat split; [|lia]. destruct K as [K|(m1 & Q & K)]; [eapply shrink_l_panic; eauto|].
      destruct (resize_left_ok E OK s c m P (Shrink (N.of_nat (len_left m))) H) as (m1' & Q' & H1).
      rewrite Q in Q'. inversion Q'; subst m1'. eapply shrink_r_panic; eauto.
    - exfalso. destruct K as (t & SP & _). eapply calm_growth in SP; eauto.
    - exfalso. destruct K as (t & SP & _). eapply calm_growth in SP; eauto.
    - exfalso. destruct K as (t & SP & _). eapply calm_growth in SP; eauto.
    - exfalso. destruct K as (t & SP & _). eapply calm_growth in SP; eauto.
  Qed.

  Lemma u_step_ok : forall s c m P o w, Repr E s c m P -> c + ids o < two64 -> guard E m o ->
    w = None \/ sheltered m o ->
    exists P' c', (s_step (eqL E) (eqR E) P o P' (snd (u_step E F m o w)) \/
                   (w <> None /\ snd (u_step E F m o w) = OPanic /\ s_panicked P o P')) /\
                  Repr E s c' (fst (u_step E F m o w)) P' /\ c' <= c + ids o.
  Proof.
    intros s c m P o w H B G SH. destruct (u_step_cases E F m o w) as [->|(N & m' & -> & K)].
    - destruct (step_ok E OK s c m P o H B G) as (P' & c' & ? & ? & ?). exists P', c'. auto.
    - destruct SH as [?|SH]; [contradiction|].
      destruct (step_panic s c m P o m' H B SH K) as (P' & c' & ? & ? & ?). exists P', c'. simpl. auto.
  Qed.
  Lemma u_run_ok : forall ops s c m P, Repr E s c m P -> c + budget (List.map fst ops) < two64 -> f_guarded m ops ->
    exists P' c', f_run P ops P' (snd (u_run E F m ops)) /\ Repr E s c' (fst (u_run E F m ops)) P' /\
                  c' <= c + budget (List.map fst ops).
  Proof.
    induction ops as [|[o w] ops IH]; intros s c m P H B G; cbn [u_run List.map budget fst f_guarded] in *.
    - exists P, c. repeat split; auto; [constructor|lia].
    - destruct G as (G0 & G1 & G2). destruct (u_step_ok s c m P o w H) as (P1 & c1 & S1 & H1 & C1); [lia|auto|auto|].
      destruct (u_step E F m o w) as [m1 a]. cbn [fst snd] in *.
      destruct (IH s c1 m1 P1 H1) as (P2 & c2 & S2 & H2 & C2); [lia|auto|].
      destruct (u_run E F m1 ops) as [m2 as_]. cbn [fst snd] in *.
      exists P2, c2. repeat split; auto; [|lia].
      destruct S1 as [S1|(N & -> & S1)]; [eapply f_run_step|eapply f_run_panic]; eauto.
  Qed.

  (* ---- C94 ---- insert, insert_left and insert_right where the tables have room for one more
     entry: a panic of user code leaves the old contents, or lacks the entries the call was to
     replace; and a sound map. *)
  Theorem C94_insert : forall k m o e w, reachable E k m -> 1 <= k ->
    match o with
    | Insert l r => e = SomeBoth l r /\ room 1 m
    | InsertLeft l => e = SomeLeft l /\ room_for (lo E) 1 (left_set m)
    | InsertRight r => e = SomeRight r /\ room_for (lo E) 1 (right_set m)
    | _ => False
    end ->
    exists P, contents E m P /\
    (u_step E F m o w = step E m o \/
     (w <> None /\ exists m' P', u_step E F m o w = (m', OPanic) /\
        s_half_insert P e P' /\ behaves_as E k m' P')).
  Proof.
    intros k m o e w H K SH. apply (reachable_view E OK) in H as (s & c & P & V & H & B). exists P. split; auto.
    destruct (u_step_cases E F m o w) as [Q|(N & m' & Q & KK)]; [left; auto|right].
    split; auto. destruct o; try (destruct SH; fail); destruct SH as [-> RM]; cbn [P_step] in KK;
      [destruct (insert_panic s c m P l r m' H RM KK) as (P' & HP & H')
      |destruct (insert_left_panic s c m P l m' H RM KK) as (P' & HP & H')
      |destruct (insert_right_panic s c m P r m' H RM KK) as (P' & HP & H')];
      exists m', P'; (split; [auto|]); (split; [auto|]); eapply (repr_behaves E OK); eauto.
  Qed.
  (* reserve_left(1); reserve_right(1) makes that room *)
  Lemma run_calls : forall ops (m : map), xrun E m (List.map Call ops) = run E m ops.
  Proof.
    induction ops as [|o ops IH]; intros m; auto. cbn [List.map xrun run xstep]. destruct (step E m o). rewrite IH. reflexivity.
  Qed.
  Lemma reserve_room : forall k m n, reachable E k m ->
    exists m1 m2, reserve_left E n m = Ret m1 tt /\ reserve_right E n m1 = Ret m2 tt /\ room n m2.
  Proof.
    intros k m n H. do 2 eexists. split; [reflexivity|]. split; [reflexivity|].
    assert (FT : fits (lo E) (left_set m) /\ fits (lo E) (right_set m)).
    { apply (obtainable_fits E (lo_ok E OK) CO). destruct H as (s & ll & lr & ops & _ & _ & ->).
      exists s, ll, lr, (List.map Call ops). rewrite run_calls. reflexivity. }
    destruct FT as [F1 F2].
    destruct (grow_room _ (lo_ok E OK) CO _ n (make_hasher_l E (hash_builder m)) F1) as (B1 & B2 & _).
    destruct (grow_room _ (lo_ok E OK) CO _ n (make_hasher_r E (hash_builder m)) F2) as (C1 & C2 & _).
    split; apply room_fits; auto.
  Qed.
  Theorem C94_reserved_insert : forall k m l r w, reachable E k m -> 1 <= k ->
    exists P m1 m2, contents E m P /\ reserve_left E 1 m = Ret m1 tt /\ reserve_right E 1 m1 = Ret m2 tt /\
    (u_step E F m2 (Insert l r) w = step E m2 (Insert l r) \/
     (w <> None /\ exists m' P', u_step E F m2 (Insert l r) w = (m', OPanic) /\
        s_half_insert P (SomeBoth l r) P' /\ behaves_as E k m' P')).
  Proof.
    intros k m l r w H K. destruct (reserve_room k m 1 H) as (m1 & m2 & Q1 & Q2 & RM).
    apply (reachable_view E OK) in H as (s & c & P & V & H & B). exists P, m1, m2. split; auto. split; auto. split; auto.
    destruct (resize_left_ok E OK s c m P (Grow 1) H) as (m1' & Q1' & H1).
    change (resize_left E (Grow 1) m) with (reserve_left E 1 m) in Q1'. rewrite Q1 in Q1'. inversion Q1'; subst m1'.
    destruct (resize_right_ok E OK s c m1 P (Grow 1) H1) as (m2' & Q2' & H2).
    change (resize_right E (Grow 1) m1) with (reserve_right E 1 m1) in Q2'. rewrite Q2 in Q2'. inversion Q2'; subst m2'.
    destruct (u_step_cases E F m2 (Insert l r) w) as [Q|(N & m' & Q & KK)]; [left; auto|right].
    split; auto. destruct (insert_panic s c m2 P l r m' H2 RM KK) as (P' & HP & H').
    exists m', P'. split; auto. split; auto. eapply (repr_behaves E OK); eauto.
  Qed.
  (* whole histories: panics of user code in sheltered calls are as harmless as [f_run] says,
     and what follows them is not affected *)
  Theorem C94_history : forall k m ops, reachable E k m -> budget (List.map fst ops) <= k -> f_guarded m ops ->
    exists P P' P'', contents E m P /\ f_run P ops P' (snd (u_run E F m ops)) /\
      contents E (fst (u_run E F m ops)) P'' /\ Permutation P'' P'.
  Proof.
    intros k m ops H K G. apply (reachable_view E OK) in H as (s & c & P & V & H & B).
    destruct (u_run_ok ops s c m P H) as (P' & c' & HR & H' & _); [lia|auto|].
    destruct (view E OK _ _ _ _ H') as (P'' & V' & PP). exists P, P', P''. auto.
  Qed.
  End Roomy.

  (* the same for histories in which only calls that add nothing panic; nothing need be known
     about capacities *)
  Fixpoint calmly_guarded (m : map) (ops : list (op L R * fuse)) : Prop :=
    match ops with
    | [] => True
    | (o, w) :: t => guard E m o /\ (w = None \/ adds_nothing o = true) /\ calmly_guarded (fst (u_step E F m o w)) t
    end.
  Theorem C93_history : forall k m ops, reachable E k m -> budget (List.map fst ops) <= k ->
    calmly_guarded m ops ->
    exists P P' P'', contents E m P /\ f_run P ops P' (snd (u_run E F m ops)) /\
      contents E (fst (u_run E F m ops)) P'' /\ Permutation P'' P'.
  Proof.
    intros k m ops H K G. apply (reachable_view E OK) in H as (s & c & P & V & H & B).
    assert (X : exists P' c', f_run P ops P' (snd (u_run E F m ops)) /\ Repr E s c' (fst (u_run E F m ops)) P').
    { assert (B' : c + budget (List.map fst ops) < two64) by lia. clear V B K. revert c m P H G B'.
      induction ops as [|[o w] ops IH]; intros c m P H G B; cbn [u_run List.map budget fst calmly_guarded] in *.
      - exists P, c. split; auto. constructor.
      - destruct G as (G0 & G1 & G2).
        assert (X : exists P1 c1, (s_step (eqL E) (eqR E) P o P1 (snd (u_step E F m o w)) \/
                      (w <> None /\ snd (u_step E F m o w) = OPanic /\ s_panicked P o P1)) /\
                    Repr E s c1 (fst (u_step E F m o w)) P1 /\ c1 <= c + ids o).
        { destruct G1 as [->|A].
          - rewrite C93_calm. destruct (step_ok E OK s c m P o H) as (P1 & c1 & ? & ? & ?); [lia|auto|]. exists P1, c1. auto.
          - destruct (C93_atomic m o w A) as [->|[N ->]].
            + destruct (step_ok E OK s c m P o H) as (P1 & c1 & ? & ? & ?); [lia|auto|]. exists P1, c1. auto.
            + exists P, c. repeat split; auto; [|lia]. right. repeat split; auto.
              destruct o; try discriminate A; reflexivity. }
        destruct X as (P1 & c1 & S1 & H1 & C1). destruct (u_step E F m o w) as [m1 a]. cbn [fst snd] in *.
        destruct (IH c1 m1 P1 H1) as (P2 & c2 & S2 & H2); [auto|lia|].
        destruct (u_run E F m1 ops) as [m2 as_]. cbn [fst snd] in *.
        exists P2, c2. split; auto.
        destruct S1 as [S1|(N & -> & S1)]; [eapply f_run_step|eapply f_run_panic]; eauto. }
    destruct X as (P' & c' & HR & H').
    destruct (view E OK _ _ _ _ H') as (P'' & V' & PP). exists P, P', P''. auto.
  Qed.
End Props.

(* ---- cases ---- *)
Ltac run_all := cbv zeta; repeat match goal with |- _ /\ _ => split; [vm_compute; reflexivity|] end;
  vm_compute; reflexivity.

(* two pairs, an unpaired item on each side, room for five on each side *)
Definition f_hist : list (op item item) :=
  [ReserveLeft 5; ReserveRight 5; Insert (it 1) (it 1); Insert (it 2) (it 2); InsertLeft (it 3); InsertRight (it 4)].
Definition fm : pmap item item N := fst (run env_room (with_hasher 0 0 0) f_hist).
Lemma fm_reachable : reachable env_room 5 fm.
Proof.
  exists 0, 0, 0, f_hist. split; [reflexivity|]. split; [|reflexivity].
  repeat (split; [exact I|]). exact I.
Qed.
Lemma fm_room : room env_room 1 fm.
Proof. split; vm_compute; discriminate. Qed.
Example fm_contents : contents env_room fm
  [SomeBoth (it 2) (it 2); SomeBoth (it 1) (it 1); SomeLeft (it 3); SomeRight (it 4)].
Proof.
  exists [(it 2, it 2); (it 1, it 1)], [SomeLeft (it 3); SomeRight (it 4)]. run_all.
Qed.

(* C93: remove_via_left, pair_forced, retain half way through *)
Definition keep_odd (x : N) (e : optional_pair item item) : N * verdict :=
  (x + 1, Some (match e with SomeLeft l | SomeBoth l _ => N.odd (fst l) | _ => true end)).
Example C93_case :
  u_step env_room f_in_place fm (RemoveViaLeft (it 2)) (Some 0%nat) = (fm, OPanic) /\
  u_step env_room f_in_place fm (RemoveViaLeft (it 2)) (Some 1%nat) = (fm, OPanic) /\
  u_step env_room f_in_place fm (RemoveViaLeft (it 2)) (Some 9%nat) = step env_room fm (RemoveViaLeft (it 2)) /\
  snd (step env_room fm (RemoveViaLeft (it 2))) = OEntry (SomeBoth (it 2) (it 2)) /\
  u_step env_room f_in_place fm (PairForced (it 1) (it 2)) (Some 5%nat) = (fm, OPanic) /\
  snd (step env_room fm (PairForced (it 1) (it 2))) = OEntry (SomeBoth (it 2) (it 1)) /\
  u_step env_room f_in_place fm (Retain N keep_odd 0) (Some 7%nat) = (fm, OPanic) /\
  snd (u_step env_room f_in_place fm (Retain N keep_odd 0) None) = OUnit /\
  u_map_eq env_room fm fm (Some 3%nat) = Panic None /\
  u_map_eq env_room fm fm (Some 100%nat) <> Panic None.
Proof. repeat match goal with |- _ /\ _ => split; [vm_compute; reflexivity|] end. vm_compute. discriminate. Qed.
Definition c_ops : list (op item item * fuse) :=
  [(RemoveViaLeft (it 2), Some 1%nat); (Insert (it 2) (it 7), None); (Pair (it 3) (it 4), Some 3%nat);
   (Unpair (it 1) (it 1), Some 2%nat); (Retain N keep_odd 0, Some 4%nat); (IterAll, None)].
Lemma c_ops_guarded : calmly_guarded env_room f_in_place fm c_ops.
Proof.
  split; [exact I|]. split; [right; reflexivity|]. split; [exact I|]. split; [left; reflexivity|].
  split; [exact I|]. split; [right; reflexivity|].
  split. { intros; vm_compute; reflexivity. }
  split; [right; reflexivity|]. split; [exact I|]. split; [right; reflexivity|].
  split; [exact I|]. split; [left; reflexivity|exact I].
Qed.
Example C93_history_case :
  reachable env_room 5 fm /\ budget (List.map fst c_ops) = 2 /\ calmly_guarded env_room f_in_place fm c_ops /\
  snd (u_run env_room f_in_place fm c_ops) =
    [OPanic; OIns (SomeBoth (it 2) (it 2), Neither); OPanic; OPanic; OPanic;
     OEntries [SomeBoth (it 2) (it 7); SomeLeft (it 3); SomeBoth (it 1) (it 1)]].
Proof. split; [exact fm_reachable|]. split; [reflexivity|]. split; [exact c_ops_guarded|]. run_all. Qed.
(* C94: insert(2, 4) displaces two entries; the three states a panic may leave *)
Definition left_over (o : op item item) (w : nat) : out item item * outcome (list (optional_pair item item)) * list (optional_pair item item) :=
  let (m', a) := u_step env_room f_in_place fm o (Some w) in
  (a, iter_all env_room m', match unpaired_rest (iter_unpaired m') with Done l => l | Panicked => [] end).
Example C94_case : room env_room 1 fm /\
  left_over (Insert (it 2) (it' 4)) 0 =
    (OPanic, Done [SomeLeft (it 3); SomeBoth (it 2) (it 2); SomeBoth (it 1) (it 1)], [SomeLeft (it 3); SomeRight (it 4)]) /\
  left_over (Insert (it 2) (it' 4)) 3 =
    (OPanic, Done [SomeLeft (it 3); SomeBoth (it 1) (it 1)], [SomeLeft (it 3); SomeRight (it 4)]) /\
  left_over (Insert (it 2) (it' 4)) 5 =
    (OPanic, Done [SomeLeft (it 3); SomeBoth (it 1) (it 1)], [SomeLeft (it 3)]) /\
  left_over (Insert (it 2) (it' 4)) 9 =
    (OIns (SomeBoth (it 2) (it 2), SomeRight (it 4)),
     Done [SomeBoth (it 2) (it' 4); SomeLeft (it 3); SomeBoth (it 1) (it 1)], [SomeLeft (it 3)]) /\
  left_over (InsertLeft (it' 1)) 4 =
    (OPanic, Done [SomeLeft (it 3); SomeBoth (it 2) (it 2)], [SomeLeft (it 3); SomeRight (it 4)]).
Proof. split; [exact fm_room|]. run_all. Qed.
(* the same after reserve in tables that are full *)
Definition full_map : pmap item item N :=
  fst (run env_room (with_hasher 0 0 0) [ReserveLeft 2; ReserveRight 2; Insert (it 1) (it 1); Insert (it 2) (it 2)]).
Example C94_reserved_case :
  let m1 := fst (run env_room full_map [ReserveLeft 1; ReserveRight 1]) in
  capacity_left env_room full_map = 2 /\ capacity_left env_room m1 = 3 /\ capacity_right env_room m1 = 3 /\
  snd (u_step env_room f_in_place m1 (Insert (it 9) (it 9)) (Some 5%nat)) = OPanic /\
  iter_all env_room (fst (u_step env_room f_in_place m1 (Insert (it 9) (it 9)) (Some 5%nat)))
    = Done [SomeBoth (it 2) (it 2); SomeBoth (it 1) (it 1)] /\
  snd (u_step env_room f_in_place m1 (Insert (it 9) (it 9)) (Some 9%nat)) = OIns (Neither, Neither).
Proof. run_all. Qed.
Definition f_ops : list (op item item * fuse) :=
  [(Insert (it 2) (it 7), Some 3%nat); (Extend [SomeBoth (it 5) (it 5)], Some 3%nat);
   (SwapLeft (it 8) (it 1), Some 2%nat); (SwapLeft (it 3) (it 6), Some 4%nat); (SwapLeft (it 1) (it' 1), Some 5%nat);
   (ShrinkToFit, Some 1%nat); (IterAll, None)].
Lemma f_ops_guarded : f_guarded env_room f_in_place fm f_ops.
Proof.
  split; [exact I|]. split; [right; split; vm_compute; discriminate|].
  split; [exact I|]. split; [right; split; vm_compute; discriminate|].
  split; [exact I|]. split; [right; left; vm_compute; reflexivity|].
  split; [exact I|]. split; [right; right; split; [right; vm_compute; reflexivity|vm_compute; discriminate]|].
  split; [exact I|]. split; [right; right; split; [left; reflexivity|vm_compute; discriminate]|].
  split; [exact I|]. split; [right; exact I|].
  split; [exact I|]. split; [left; reflexivity|exact I].
Qed.
Example C94_history_case :
  reachable env_room 5 fm /\ budget (List.map fst f_ops) = 2 /\ f_guarded env_room f_in_place fm f_ops /\
  snd (u_run env_room f_in_place fm f_ops) =
    [OPanic; OPanic; OPanic; OPanic; OPanic; OPanic; OEntries [SomeLeft (it 3); SomeBoth (it 1) (it 1)]].
Proof. split; [exact fm_reachable|]. split; [reflexivity|]. split; [exact f_ops_guarded|]. run_all. Qed.

Print Assumptions C93_atomic.
Print Assumptions C93_eq.
Print Assumptions C93_calm.
Print Assumptions C93_history.
Print Assumptions C94_insert.
Print Assumptions C94_reserved_insert.
Print Assumptions C94_history.
