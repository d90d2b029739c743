(* CycleMap when the Hash or Eq of the items panics: properties C87-C91. *)
From Coq Require Import List NArith Lia Bool Permutation PeanoNat.
From Verif Require Import Closures Prelude RawTable Optionals CycleMap ListFacts TableFacts SoundTables
  CycleMapSpec CycleMapHistory CycleMapProofs CycleMapProofs2 CycleMapProofs3 CycleMapHistoryProofs
  Concrete CycleMapProps CycleMapProps2 CycleMapAny Capacity CycleMapCapacity
  Faults FaultTables CycleMapFault CycleMapFaultProofs.
Import ListNotations.
Open Scope N_scope.

(* calls that neither add anything nor change the capacity *)
Definition adds_nothing {L R} (o : op L R) : bool :=
  match o with
  | Insert _ _ | SwapLeft _ _ | SwapLeftChecked _ _ _ | SwapLeftOrInsert _ _ _
  | SwapRight _ _ | SwapRightChecked _ _ _ | SwapRightOrInsert _ _ _ | Extend _
  | ShrinkTo _ | ShrinkToFit | Reserve _ | TryReserve _ => false
  | _ => true
  end.

(* The contents a panic of user code may leave, as a relation on lists of pairs. *)
Section PanicSpec.
  Context {L R : Type} (eL : L -> L -> bool) (eR : R -> R -> bool).
  Notation pairs := (list (L * R)).

  (* insert(l, r): all as before, or without the pairs it was to replace *)
  Definition s_half_insert (P : pairs) (l : L) (r : R) (P' : pairs) : Prop :=
    P' = P \/ P' = del_l eL P l \/ P' = del_r eR (del_l eL P l) r.
  Definition s_panicked (P : pairs) (o : op L R) (P' : pairs) : Prop :=
    match o with
    | Insert l r => s_half_insert P l r P'
    | Extend xs => exists done_ l r todo, xs = done_ ++ (l, r) :: todo /\
                     s_half_insert (s_insert_all eL eR P done_) l r P'
    | SwapLeft old new | SwapLeftChecked old _ new => P' = P \/ P' = s_swap_left_base eL P old new
    | SwapRight old new | SwapRightChecked old _ new => P' = P \/ P' = s_swap_right_base eR P old new
    | SwapLeftOrInsert old new r =>
        P' = P \/ P' = s_swap_left_base eL P old new \/ s_half_insert P new r P'
    | SwapRightOrInsert old new l =>
        P' = P \/ P' = s_swap_right_base eR P old new \/ s_half_insert P l new P'
    | _ => P' = P
    end.

  (* histories in which calls may panic *)
  Inductive f_run : pairs -> list (op L R * fuse) -> pairs -> list (out L R) -> Prop :=
  | f_run_nil : forall P, f_run P [] P []
  | f_run_step : forall P o w P1 a ops P2 as_,
      s_step eL eR P o P1 a -> f_run P1 ops P2 as_ -> f_run P ((o, w) :: ops) P2 (a :: as_)
  | f_run_panic : forall P o w P1 ops P2 as_,
      w <> None -> s_panicked P o P1 -> f_run P1 ops P2 as_ -> f_run P ((o, w) :: ops) P2 (OPanic :: as_).
End PanicSpec.

Section Props.
  Context {L R S : Type}.
  Variable E : env L R S.
  Hypothesis OK : lawful E.
  Variable F : fault.
  Notation map := (cmap L R S).
  Notation s_panicked := (s_panicked (eqL E) (eqR E)).
  Notation s_half_insert := (s_half_insert (eqL E) (eqR E)).
  Notation f_run := (f_run (eqL E) (eqR E)).

  (* ---- C87 ---- a call that adds nothing is atomic: if user code panics in it, the map is
     the same as before the call, bit by bit.  Any map, any order of calls of user code. *)
  Theorem C87_atomic : forall m o w, adds_nothing o = true ->
    u_step E F m o w = step E m o \/ (w <> None /\ u_step E F m o w = (m, OPanic)).
  Proof.
    intros m o w A. destruct (u_step_cases E F (lo_ok E OK) m o w) as [?|(N & m' & Q & H)]; [left; auto|].
    right. split; auto. destruct o; try discriminate A; cbn [P_step] in H; subst; auto.
  Qed.
  (* ==: what map_eq says, or a panic *)
  Theorem C87_eq : forall m m' w,
    (exists w', u_map_eq E m m' w = inner (map_eq E m m') w') \/ (w <> None /\ u_map_eq E m m' w = Panic None).
  Proof.
    intros m m' w. destruct (ag_map_eq E m m' w) as [(w' & _ & H)|H]; [left; eauto|right; auto].
  Qed.
  (* nothing of this is needed when user code returns *)
  Theorem C87_calm : forall m o, u_step E F m o None = step E m o.
  Proof. intros m o. apply u_step_calm, (lo_ok E OK). Qed.

  (* ---- C88: calls that add items, when the tables have room for them ---- *)
  Definition room (k : N) (m : map) : Prop := room_for (lo E) k (left_set m) /\ room_for (lo E) k (right_set m).
  (* calls in which user code may panic without harm *)
  Definition sheltered (m : map) (o : op L R) : Prop :=
    match o with
    | Insert _ _ => room 1 m
    | Extend xs => room (N.of_nat (length xs)) m
    | SwapLeft old new | SwapLeftChecked old _ new =>
        contains_left E m old = false \/ (eqL E new old = true /\ room_for (lo E) 1 (left_set m))
    | SwapRight old new | SwapRightChecked old _ new =>
        contains_right E m old = false \/ (eqR E new old = true /\ room_for (lo E) 1 (right_set m))
    | SwapLeftOrInsert old new _ => (contains_left E m old = false \/ eqL E new old = true) /\ room 1 m
    | SwapRightOrInsert old new _ => (contains_right E m old = false \/ eqR E new old = true) /\ room 1 m
    | Reserve n | TryReserve n => room n m
    | _ => True
    end.
  (* a history whose calls return, except where sheltered *)
  Fixpoint guarded (m : map) (ops : list (op L R * fuse)) : Prop :=
    match ops with
    | [] => True
    | (o, w) :: t => (w = None \/ sheltered m o) /\ guarded (fst (u_step E F m o w)) t
    end.

  Section Roomy.
  Hypothesis CO : capacity_ok (lo E).
  Hypothesis CA : calm_ok (lo E).

  Lemma room_costs : forall j k m m', costs (lo E) (@left_set L R S) (@right_set L R S) j j m m' ->
    room (j + k) m -> room k m'.
  Proof. intros j k m m' [U1 U2] [H1 H2]. split; eapply room_uses; eauto. Qed.
  Lemma ret_cost : forall {X} (c : M map X) a b m m' x, at_cost (lo E) (@left_set L R S) (@right_set L R S) a b c ->
    c m = Ret m' x -> costs (lo E) (@left_set L R S) (@right_set L R S) a b m m'.
  Proof. intros X c a b m m' x H Q. specialize (H m). rewrite Q in H. exact H. Qed.

  Lemma insert_panic : forall s c m P l r m', Repr E s c m P -> room 1 m ->
    P_insert E F l r m m' -> exists P', s_half_insert P l r P' /\ Repr E s c m' P'.
  Proof.
    intros s c m P l r m' H RM [->|[(a & Q)|(m1 & a & m2 & b & Q1 & Q2 & K)]].
    - exists P. split; [left; auto|auto].
    - destruct (remove_via_left_ok E OK s c m P l H) as (m1 & Q1 & H1). rewrite Q in Q1. inversion Q1; subst.
      exists (del_l (eqL E) P l). split; [right; left; auto|auto].
    - destruct (remove_via_left_ok E OK s c m P l H) as (m1' & Q1' & H1). rewrite Q1 in Q1'. inversion Q1'; subst.
      destruct (remove_via_right_ok E OK s c _ _ r H1) as (m2' & Q2' & H2). rewrite Q2 in Q2'. inversion Q2'; subst.
      assert (R2 : room 1 m2').
      { eapply (room_costs 0); [exact (ret_cost _ _ _ _ _ _ (rvr_cost E CO r) Q2)|].
        eapply (room_costs 0); [exact (ret_cost _ _ _ _ _ _ (rvl_cost E CO l) Q1)|]. exact RM. }
      destruct K as [->|(m3 & Q3 & K)]; [exists (del_r (eqR E) (del_l (eqL E) P l) r); split; [right; right; auto|auto]|].
      exfalso. unfold incr_counter, bind, getst, putst in Q3.
      destruct (u64_incr _ _); [|discriminate]. simpl in Q3. inversion Q3; subst m3. clear Q3.
      destruct R2 as [RL RR]. destruct K as [(t & SP & _)|(m4 & Q4 & t & SP & _)].
      + eapply calm_insertion in SP; eauto.
      + unfold left_insert, bind, getst, putst in Q4. inversion Q4; subst m4.
        eapply calm_insertion in SP; eauto.
  Qed.

  Lemma modify_same : forall {A} (t : table A) i h e f, nth_error (slots t) i = Some (h, e) -> f e = e ->
    Permutation (slots (t_modify t i f)) (slots t).
  Proof.
    intros A t i h e f N Q. pose proof (remove_nth_perm _ _ _ N) as P.
    etransitivity; [eapply t_modify_perm; eauto|]. rewrite Q. symmetry. exact P.
  Qed.
  Lemma found_l_absent : forall s c m P q, Repr E s c m P -> s_contains_left (eqL E) P q = false ->
    t_get (lo E) (left_set m) (hashL E (hash_builder m) q) (equivalent_key (eqL E) q) = None.
  Proof.
    intros s c m P q H Q. rewrite (repr_hb E _ _ _ _ H). pose proof (left_get_bool E OK s c m P q H) as B.
    destruct (t_get _ _ _ _); congruence.
  Qed.
  Lemma found_r_absent : forall s c m P q, Repr E s c m P -> s_contains_right (eqR E) P q = false ->
    t_get (lo E) (right_set m) (hashR E (hash_builder m) q) (equivalent_key (eqR E) q) = None.
  Proof.
    intros s c m P q H Q. rewrite (repr_hb E _ _ _ _ H). pose proof (right_get_bool E OK s c m P q H) as B.
    destruct (t_get _ _ _ _); congruence.
  Qed.
  Lemma base_absent_l : forall P old new, s_contains_left (eqL E) P old = false ->
    s_contains_left (eqL E) (@s_swap_left_base L R (eqL E) P old new) old = false.
  Proof.
    intros P old new H. unfold s_contains_left in *. rewrite existsb_false in *. intros x Hx. apply H.
    unfold s_swap_left_base in Hx. destruct (eqL E new old); auto. apply filter_In in Hx as [? _]; auto.
  Qed.
  Lemma base_absent_r : forall P old new, s_contains_right (eqR E) P old = false ->
    s_contains_right (eqR E) (@s_swap_right_base L R (eqR E) P old new) old = false.
  Proof.
    intros P old new H. unfold s_contains_right in *. rewrite existsb_false in *. intros x Hx. apply H.
    unfold s_swap_right_base in Hx. destruct (eqR E new old); auto. apply filter_In in Hx as [? _]; auto.
  Qed.

  Lemma swap_left_panic : forall s c m P old new m', Repr E s c m P ->
    contains_left E m old = false \/ (eqL E new old = true /\ room_for (lo E) 1 (left_set m)) ->
    P_swap_left E F old new m m' ->
    exists P', (P' = P \/ P' = s_swap_left_base (eqL E) P old new) /\ Repr E s c m' P'.
  Proof.
    intros s c m P old new m' H SH [->|(m1 & a & Q1 & K)]; [exists P; auto|].
    destruct (swap_left_eq_check_ok E OK s c m P old new H) as (m1' & Q1' & H1).
    rewrite (repr_hb E _ _ _ _ H) in Q1. rewrite Q1 in Q1'. inversion Q1'; subst m1' a. clear Q1'.
    destruct K as [->|(lp & i & G & FI & K)]; [eexists; split; [right; reflexivity|auto]|].
    destruct SH as [SH|[EQ RM]].
    { exfalso. rewrite (contains_left_spec E OK s c m P) in SH by auto.
      rewrite (found_l_absent s c m1 _ old H1) in G; [discriminate|]. apply base_absent_l; auto. }
    assert (EB : s_swap_left_base (eqL E) P old new = P) by (unfold s_swap_left_base; rewrite EQ; auto).
    rewrite EB in *. rewrite (repr_hb E _ _ _ _ H) in K. rewrite (repr_hb E _ _ _ _ H1) in *.
    rewrite (hashL_ok E OK s _ _ EQ) in *.
    destruct K as [->|(m3 & e & Q3 & t & SP & _)].
    - exists P. split; auto. destruct H1 as (Z & H1 & ->). exists Z. split; auto.
      apply (rep_tables E); auto. apply t_find_some in FI as (h' & x & N & PX).
      eapply modify_same; eauto. unfold hash_and_id in PX. apply andb_true_iff in PX as [_ PX].
      destruct x. simpl in *. f_equal. apply N.eqb_eq. auto.
    - exfalso. eapply calm_insertion in SP; eauto.
      pose proof (ret_cost _ _ _ _ _ _ (l_remove_cost E CO (hashL E s old) (equivalent_key (eqL E) old)) Q3) as [U _].
      eapply (room_uses _ 0); [exact U|]. unfold repoint_r. simpl.
      pose proof (ret_cost _ _ _ _ _ _ (eqcl_cost E CO old new (hashL E s old)) Q1) as [U1 _].
      eapply (room_uses _ 0); [exact U1|]. exact RM.
  Qed.
  Lemma swap_right_panic : forall s c m P old new m', Repr E s c m P ->
    contains_right E m old = false \/ (eqR E new old = true /\ room_for (lo E) 1 (right_set m)) ->
    P_swap_right E F old new m m' ->
    exists P', (P' = P \/ P' = s_swap_right_base (eqR E) P old new) /\ Repr E s c m' P'.
  Proof.
    intros s c m P old new m' H SH [->|(m1 & a & Q1 & K)]; [exists P; auto|].
    destruct (swap_right_eq_check_ok E OK s c m P old new H) as (m1' & Q1' & H1).
    rewrite (repr_hb E _ _ _ _ H) in Q1. rewrite Q1 in Q1'. inversion Q1'; subst m1' a. clear Q1'.
    destruct K as [->|(lp & i & G & FI & K)]; [eexists; split; [right; reflexivity|auto]|].
    destruct SH as [SH|[EQ RM]].
    { exfalso. rewrite (contains_right_spec E OK s c m P) in SH by auto.
      rewrite (found_r_absent s c m1 _ old H1) in G; [discriminate|]. apply base_absent_r; auto. }
    assert (EB : s_swap_right_base (eqR E) P old new = P) by (unfold s_swap_right_base; rewrite EQ; auto).
    rewrite EB in *. rewrite (repr_hb E _ _ _ _ H1) in *.
    rewrite (hashR_ok E OK s _ _ EQ) in *.
    destruct K as [->|(m3 & e & Q3 & t & SP & _)].
    - exists P. split; auto. destruct H1 as (Z & H1 & ->). exists Z. split; auto.
      apply (rep_tables E); auto. apply t_find_some in FI as (h' & x & N & PX).
      eapply modify_same; eauto. unfold hash_and_id in PX. apply andb_true_iff in PX as [_ PX].
      destruct x. simpl in *. f_equal. apply N.eqb_eq. auto.
    - exfalso. eapply calm_insertion in SP; eauto.
      pose proof (ret_cost _ _ _ _ _ _ (r_remove_cost E CO (hashR E s old) (equivalent_key (eqR E) old)) Q3) as [_ U].
      eapply (room_uses _ 0); [exact U|]. unfold repoint_l. simpl.
      pose proof (ret_cost _ _ _ _ _ _ (eqcr_cost E CO old new (hashR E s old)) Q1) as [_ U1].
      eapply (room_uses _ 0); [exact U1|]. exact RM.
  Qed.

  Lemma extend_panic : forall xs s c m P m', Repr E s c m P -> c + N.of_nat (length xs) < two64 ->
    room (N.of_nat (length xs)) m -> P_extend E F xs m m' ->
    exists P' c', s_panicked P (Extend xs) P' /\ Repr E s c' m' P' /\ c' <= c + N.of_nat (length xs).
  Proof.
    induction xs as [|[l r] xs IH]; simpl; intros s c m P m' H B RM K; [destruct K|].
    destruct K as [K|(m1 & d & Q & K)].
    - destruct (insert_panic s c m P l r m' H) as (P' & HP & H'); auto.
      { destruct RM; split; (eapply room_less; [|eassumption]; lia). }
      exists P', c. repeat split; auto; [|lia]. exists [], l, r, xs. auto.
    - destruct (insert_ok E OK s c m P l r H) as (m1' & Q' & H1); [lia|]. rewrite Q in Q'. inversion Q'; subst m1' d.
      destruct (IH s (c + 1) m1 _ m' H1) as (P' & c' & (dn & a & b & td & -> & HP) & H' & C'); [lia| |auto|].
      + eapply (room_costs 1); [exact (ret_cost _ _ _ _ _ _ (insert_cost E (lo_ok E OK) CO l r) Q)|].
        replace (1 + N.of_nat (length xs)) with (N.of_nat (Datatypes.S (length xs))) by lia. exact RM.
      + exists P', c'. repeat split; auto; [|lia]. exists ((l, r) :: dn), a, b, td. auto.
  Qed.
  (* shrink_to works on new allocations *)
  Lemma shrink_panic : forall s c m P n m', Repr E s c m P -> P_resize E F (Shrink n) m m' -> Repr E s c m' P.
  Proof.
    intros s c m P n m' (Z & H & ->) [(t & (_ & _ & SP) & ->)|(t & (_ & _ & SP) & ->)];
      cbn in SP; subst t; exists Z; split; auto; [apply (rep_tables E); auto|].
    refine (rep_tables E s c m Z _ (right_set m) H _ (Permutation_refl _)).
    apply (t_resize_perm _ (lo_ok E OK)). rewrite (rep_hb _ _ _ _ _ H). eapply rep_hashed_l; eauto.
  Qed.
  Lemma grow_panic : forall s c m P n m', Repr E s c m P -> room n m -> P_resize E F (Grow n) m m' -> False.
  Proof.
    intros s c m P n m' (Z & H & ->) [RL RR] [(t & SP & _)|(t & SP & _)]; eapply calm_growth in SP; eauto.
  Qed.

  Lemma step_panic : forall s c m P o m', Repr E s c m P -> c + ids o < two64 -> sheltered m o ->
    P_step E F o m m' -> exists P' c', s_panicked P o P' /\ Repr E s c' m' P' /\ c' <= c + ids o.
  Proof.
    intros s c m P o m' H B SH K.
    destruct o; cbn [P_step sheltered ids CycleMapFaultProps.s_panicked] in *;
      try (subst m'; exists P, c; repeat split; auto; lia).
    - destruct (insert_panic s c m P l r m' H SH K) as (P' & HP & H'). exists P', c. repeat split; auto; lia.
    - destruct (swap_left_panic s c m P old new m' H SH K) as (P' & HP & H'). exists P', c. repeat split; auto; lia.
    - destruct (swap_left_panic s c m P old new m' H SH K) as (P' & HP & H'). exists P', c. repeat split; auto; lia.
    - destruct SH as [SH RM]. destruct K as [K|K].
      + destruct (swap_left_panic s c m P old new m' H) as (P' & HP & H'); auto.
        { destruct SH; auto. right. split; auto. apply RM. }
        exists P', c. repeat split; auto; [tauto|lia].
      + destruct (insert_panic s c m P new to_insert m' H RM K) as (P' & HP & H'). exists P', c. repeat split; auto; lia.
    - destruct (swap_right_panic s c m P old new m' H SH K) as (P' & HP & H'). exists P', c. repeat split; auto; lia.
    - destruct (swap_right_panic s c m P old new m' H SH K) as (P' & HP & H'). exists P', c. repeat split; auto; lia.
    - destruct SH as [SH RM]. destruct K as [K|K].
      + destruct (swap_right_panic s c m P old new m' H) as (P' & HP & H'); auto.
        { destruct SH; auto. right. split; auto. apply RM. }
        exists P', c. repeat split; auto; [tauto|lia].
      + destruct (insert_panic s c m P to_insert new m' H RM K) as (P' & HP & H'). exists P', c. repeat split; auto; lia.
    - destruct (extend_panic xs s c m P m' H) as (P' & c' & HP & H' & C'); auto. exists P', c'. auto.
    - exists P, c. repeat split; [|lia]. eapply shrink_panic; eauto.
    - exists P, c. repeat split; [|lia]. eapply shrink_panic; eauto.
    - exfalso. eapply grow_panic; eauto.
    - exfalso. eapply grow_panic; eauto.
  Qed.

  Lemma u_step_ok : forall s c m P o w, Repr E s c m P -> c + ids o < two64 -> w = None \/ sheltered m o ->
    exists P' c', (s_step (eqL E) (eqR E) P o P' (snd (u_step E F m o w)) \/
                   (w <> None /\ snd (u_step E F m o w) = OPanic /\ s_panicked P o P')) /\
                  Repr E s c' (fst (u_step E F m o w)) P' /\ c' <= c + ids o.
  Proof.
    intros s c m P o w H B SH. destruct (u_step_cases E F (lo_ok E OK) m o w) as [->|(N & m' & -> & K)].
    - destruct (step_ok E OK s c m P o H B) as (P' & c' & ? & ? & ?). exists P', c'. auto.
    - destruct SH as [?|SH]; [contradiction|].
      destruct (step_panic s c m P o m' H B SH K) as (P' & c' & ? & ? & ?). exists P', c'. simpl. auto.
  Qed.
  Lemma u_run_ok : forall ops s c m P, Repr E s c m P -> c + budget (List.map fst ops) < two64 -> guarded m ops ->
    exists P' c', f_run P ops P' (snd (u_run E F m ops)) /\ Repr E s c' (fst (u_run E F m ops)) P' /\
                  c' <= c + budget (List.map fst ops).
  Proof.
    induction ops as [|[o w] ops IH]; intros s c m P H B G; cbn [u_run List.map budget fst guarded] in *.
    - exists P, c. repeat split; auto; [constructor|lia].
    - destruct G as [G1 G2]. destruct (u_step_ok s c m P o w H) as (P1 & c1 & S1 & H1 & C1); [lia|auto|].
      destruct (u_step E F m o w) as [m1 a]. cbn [fst snd] in *.
      destruct (IH s c1 m1 P1 H1) as (P2 & c2 & S2 & H2 & C2); [lia|auto|].
      destruct (u_run E F m1 ops) as [m2 as_]. cbn [fst snd] in *.
      exists P2, c2. repeat split; auto; [|lia].
      destruct S1 as [S1|(N & -> & S1)]; [eapply f_run_step|eapply f_run_panic]; eauto.
  Qed.

  (* ---- C88 ---- insert(l, r) with room for one more pair: a panic of user code leaves the
     old contents, less the pair of l, or less the pairs of l and r; and a sound map. *)
  Theorem C88_insert : forall k m l r w, reachable E k m -> 1 <= k -> room 1 m ->
    exists P, contents E m P /\
    (u_step E F m (Insert l r) w = step E m (Insert l r) \/
     (w <> None /\ exists m' P', u_step E F m (Insert l r) w = (m', OPanic) /\
        s_half_insert P l r P' /\ behaves_as E k m' P')).
  Proof.
    intros k m l r w H K RM. apply (reachable_view E OK) in H as (s & c & P & V & H & B). exists P. split; auto.
    destruct (u_step_cases E F (lo_ok E OK) m (Insert l r) w) as [Q|(N & m' & Q & KK)]; [left; auto|right].
    split; auto. destruct (insert_panic s c m P l r m' H RM KK) as (P' & HP & H').
    exists m', P'. repeat split; auto; eapply repr_behaves; eauto.
  Qed.
  (* reserve(1) makes that room *)
  Lemma reserve_room : forall k m n, reachable E k m -> exists m', reserve E n m = Ret m' tt /\ room n m'.
  Proof.
    intros k m n H. eexists. split; [reflexivity|].
    assert (FT : fits (lo E) (left_set m) /\ fits (lo E) (right_set m)).
    { apply (obtainable_fits E (lo_ok E OK) CO). destruct H as (s & ll & lr & ops & _ & ->).
      exists s, ll, lr, (List.map Call ops). f_equal. clear. generalize (with_hasher s ll lr : map) as m.
      induction ops as [|o ops IH]; simpl; intros m; auto. destruct (step E m o). rewrite IH. reflexivity. }
    destruct FT as [F1 F2].
    destruct (grow_room _ (lo_ok E OK) CO _ n (make_hasher_l E (hash_builder m)) F1) as (B1 & B2 & _).
    destruct (grow_room _ (lo_ok E OK) CO _ n (make_hasher_r E (hash_builder m)) F2) as (C1 & C2 & _).
    split; apply room_fits; auto.
  Qed.
  Theorem C88_reserved_insert : forall k m l r w, reachable E k m -> 1 <= k ->
    exists P m1, contents E m P /\ reserve E 1 m = Ret m1 tt /\
    (u_step E F m1 (Insert l r) w = step E m1 (Insert l r) \/
     (w <> None /\ exists m' P', u_step E F m1 (Insert l r) w = (m', OPanic) /\
        s_half_insert P l r P' /\ behaves_as E k m' P')).
  Proof.
    intros k m l r w H K. destruct (reserve_room k m 1 H) as (m1 & Q1 & RM).
    apply (reachable_view E OK) in H as (s & c & P & V & H & B). exists P, m1. split; auto. split; auto.
    destruct (resize_both_ok E OK s c m P (Grow 1) H) as (m1' & Q1' & H1).
    change (resize_both E (Grow 1) m) with (reserve E 1 m) in Q1'. rewrite Q1 in Q1'. inversion Q1'; subst m1'.
    destruct (u_step_cases E F (lo_ok E OK) m1 (Insert l r) w) as [Q|(N & m' & Q & KK)]; [left; auto|right].
    split; auto. destruct (insert_panic s c m1 P l r m' H1 RM KK) as (P' & HP & H').
    exists m', P'. repeat split; auto; eapply repr_behaves; eauto.
  Qed.
  (* whole histories: panics of user code in sheltered calls are as harmless as [f_run] says,
     and what follows them is not affected *)
  Theorem C88_history : forall k m ops, reachable E k m -> budget (List.map fst ops) <= k -> guarded m ops ->
    exists P P' P'', contents E m P /\ f_run P ops P' (snd (u_run E F m ops)) /\
      contents E (fst (u_run E F m ops)) P'' /\ Permutation P'' P'.
  Proof.
    intros k m ops H K G. apply (reachable_view E OK) in H as (s & c & P & V & H & B).
    destruct (u_run_ok ops s c m P H) as (P' & c' & HR & H' & _); [lia|auto|].
    destruct (iter_all_ok E OK _ _ _ _ H') as (P'' & V' & PP). exists P, P', P''. auto.
  Qed.
  End Roomy.

  (* the same for histories in which only calls that add nothing panic; nothing need be known
     about capacities *)
  Theorem C87_history : forall k m ops, reachable E k m -> budget (List.map fst ops) <= k ->
    (forall o w, In (o, w) ops -> w = None \/ adds_nothing o = true) ->
    exists P P' P'', contents E m P /\ f_run P ops P' (snd (u_run E F m ops)) /\
      contents E (fst (u_run E F m ops)) P'' /\ Permutation P'' P'.
  Proof.
    intros k m ops H K G. apply (reachable_view E OK) in H as (s & c & P & V & H & B).
    assert (X : exists P' c', f_run P ops P' (snd (u_run E F m ops)) /\ Repr E s c' (fst (u_run E F m ops)) P').
    { assert (B' : c + budget (List.map fst ops) < two64) by lia. clear V B K. revert c m P H G B'.
      induction ops as [|[o w] ops IH]; intros c m P H G B; cbn [u_run List.map budget fst] in *.
      - exists P, c. split; auto. constructor.
      - assert (X : exists P1 c1, (s_step (eqL E) (eqR E) P o P1 (snd (u_step E F m o w)) \/
                      (w <> None /\ snd (u_step E F m o w) = OPanic /\ s_panicked P o P1)) /\
                    Repr E s c1 (fst (u_step E F m o w)) P1 /\ c1 <= c + ids o).
        { destruct (G o w (or_introl eq_refl)) as [->|A].
          - rewrite C87_calm. destruct (step_ok E OK s c m P o H) as (P1 & c1 & ? & ? & ?); [lia|]. exists P1, c1. auto.
          - destruct (C87_atomic m o w A) as [->|[N ->]].
            + destruct (step_ok E OK s c m P o H) as (P1 & c1 & ? & ? & ?); [lia|]. exists P1, c1. auto.
            + exists P, c. repeat split; auto; [|lia]. right. repeat split; auto.
              destruct o; try discriminate A; reflexivity. }
        destruct X as (P1 & c1 & S1 & H1 & C1). destruct (u_step E F m o w) as [m1 a]. cbn [fst snd] in *.
        destruct (IH c1 m1 P1 H1) as (P2 & c2 & S2 & H2); [intros; apply G; right; auto|lia|].
        destruct (u_run E F m1 ops) as [m2 as_]. cbn [fst snd] in *.
        exists P2, c2. split; auto.
        destruct S1 as [S1|(N & -> & S1)]; [eapply f_run_step|eapply f_run_panic]; eauto. }
    destruct X as (P' & c' & HR & H').
    destruct (iter_all_ok E OK _ _ _ _ H') as (P'' & V' & PP). exists P, P', P''. auto.
  Qed.
End Props.

(* ---- cases ---- *)
Ltac run_all := cbv zeta; repeat match goal with |- _ /\ _ => split; [vm_compute; reflexivity|] end;
  vm_compute; reflexivity.

(* three pairs in tables with room for four *)
Definition f_hist : list (op item item) :=
  [Reserve 4; Insert (it 1) (it 1); Insert (it 2) (it 2); Insert (it 3) (it 3)].
Definition fm : cmap item item N := fst (run env_room (with_hasher 0 0 0) f_hist).
Lemma fm_reachable : reachable env_room 5 fm.
Proof. exists 0, 0, 0, f_hist. split; [reflexivity|reflexivity]. Qed.
Lemma fm_room : room env_room 1 fm.
Proof. split; vm_compute; discriminate. Qed.
Example fm_contents : contents env_room fm [(it 3, it 3); (it 2, it 2); (it 1, it 1)].
Proof. vm_compute. reflexivity. Qed.

(* C87: remove_via_left calls Hash once and Eq once; retain panics half way through *)
Definition keep_odd (x : N) (l r : item) : N * verdict := (x + 1, Some (N.odd (fst l))).
Example C87_case :
  u_step env_room f_in_place fm (RemoveViaLeft (it 2)) (Some 0%nat) = (fm, OPanic) /\
  u_step env_room f_in_place fm (RemoveViaLeft (it 2)) (Some 1%nat) = (fm, OPanic) /\
  u_step env_room f_in_place fm (RemoveViaLeft (it 2)) (Some 4%nat) = step env_room fm (RemoveViaLeft (it 2)) /\
  snd (step env_room fm (RemoveViaLeft (it 2))) = OPair (Some (it 2, it 2)) /\
  u_step env_room f_in_place fm (Retain N keep_odd 0) (Some 7%nat) = (fm, OPanic) /\
  snd (u_step env_room f_in_place fm (Retain N keep_odd 0) None) = OUnit /\
  u_map_eq env_room fm fm (Some 3%nat) = Panic None /\
  u_map_eq env_room fm fm (Some 100%nat) <> Panic None.
Proof. repeat match goal with |- _ /\ _ => split; [vm_compute; reflexivity|] end. vm_compute. discriminate. Qed.
Example C87_history_case :
  let ops := [(RemoveViaLeft (it 2), Some 1%nat); (Insert (it 2) (it 7), None); (IterAll, Some 5%nat);
              (Remove (it 3) (it 3), Some 3%nat); (Retain N keep_odd 0, Some 4%nat); (GetRight (it 2), None)] in
  reachable env_room 5 fm /\ budget (List.map fst ops) = 1 /\
  snd (u_run env_room f_in_place fm ops) =
    [OPanic; OIns (SomeLeft (it 2, it 2)); OPanic; OPanic; OPanic; OR (Some (it 7))].
Proof. split; [exact fm_reachable|]. run_all. Qed.
(* C88: insert(2, 3) displaces two pairs; the three states a panic may leave *)
Definition lost_pairs (w : nat) : out item item * outcome (list (item * item)) :=
  let (m', a) := u_step env_room f_in_place fm (Insert (it 2) (it' 3)) (Some w) in (a, iter_all env_room m').
Example C88_case : room env_room 1 fm /\
  lost_pairs 0 = (OPanic, Done [(it 3, it 3); (it 2, it 2); (it 1, it 1)]) /\
  lost_pairs 4 = (OPanic, Done [(it 3, it 3); (it 1, it 1)]) /\
  lost_pairs 6 = (OPanic, Done [(it 1, it 1)]) /\
  lost_pairs 9 = (OIns (SomeBoth (it 2, it 2) (it 3, it 3)), Done [(it 2, it' 3); (it 1, it 1)]).
Proof. split; [exact fm_room|]. run_all. Qed.
(* the same after reserve(1) in a table that is full; then the pair goes in *)
Definition full_map : cmap item item N :=
  fst (run env_room (with_hasher 0 0 0) [Reserve 2; Insert (it 1) (it 1); Insert (it 2) (it 2)]).
Example C88_reserved_case :
  let m1 := fst (step env_room full_map (Reserve 1)) in
  capacity env_room full_map = 2 /\ capacity env_room m1 = 3 /\
  snd (u_step env_room f_in_place m1 (Insert (it 9) (it 9)) (Some 5%nat)) = OPanic /\
  iter_all env_room (fst (u_step env_room f_in_place m1 (Insert (it 9) (it 9)) (Some 5%nat)))
    = Done [(it 2, it 2); (it 1, it 1)] /\
  snd (u_step env_room f_in_place m1 (Insert (it 9) (it 9)) (Some 9%nat)) = OIns Neither.
Proof. run_all. Qed.
Definition f_ops : list (op item item * fuse) :=
  [(Insert (it 2) (it 7), Some 4%nat); (Extend [(it 4, it 4)], Some 3%nat);
   (SwapLeft (it 8) (it 1), Some 2%nat); (SwapLeft (it 1) (it' 1), Some 5%nat);
   (ShrinkToFit, Some 1%nat); (IterAll, None)].
Lemma f_ops_guarded : guarded env_room f_in_place fm f_ops.
Proof.
  split; [right; split; vm_compute; discriminate|].
  split; [right; split; vm_compute; discriminate|].
  split; [right; left; vm_compute; reflexivity|].
  split; [right; right; split; [reflexivity|vm_compute; discriminate]|].
  split; [right; exact I|]. split; [left; reflexivity|exact I].
Qed.
Example C88_history_case :
  reachable env_room 5 fm /\ budget (List.map fst f_ops) = 2 /\ guarded env_room f_in_place fm f_ops /\
  snd (u_run env_room f_in_place fm f_ops) =
    [OPanic; OPanic; OPanic; OPanic; OPanic; OPairs [(it 3, it 3); (it 1, it 1)]].
Proof. split; [exact fm_reachable|]. split; [reflexivity|]. split; [exact f_ops_guarded|]. run_all. Qed.

Print Assumptions C87_atomic.
Print Assumptions C87_eq.
Print Assumptions C87_calm.
Print Assumptions C87_history.
Print Assumptions C88_insert.
Print Assumptions C88_reserved_insert.
Print Assumptions C88_history.
