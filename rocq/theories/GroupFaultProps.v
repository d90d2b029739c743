(* GroupMap when the Hash or Eq of the items panics: properties C99, C100. *)
From Coq Require Import List NArith Lia Bool Permutation PeanoNat.
From Verif Require Import Closures Prelude RawTable GroupMap ListFacts TableFacts SoundTables
  GroupSpec GroupHistory GroupProofs GroupProofs2 GroupProofs3 GroupProofs5 GroupHistoryProofs Concrete
  GroupProps GroupProps3 Capacity GroupCapacity Faults FaultTables GroupFault GroupFaultProofs GroupWreck.
Import ListNotations.
Open Scope N_scope.

(* calls that neither add an item nor remove a right item *)
Definition modest {L R} (o : op L R) : bool :=
  match o with
  | Insert _ _ | InsertRemove _ _ | InsertLeft _ _ | InsertRight _ | SwapRight _ _ | SwapRightRemove _ _
  | Pair _ _ | Remove _ _ | RemoveRight _ | ExtendPairs _ | Extend _ => false
  | _ => true
  end.

(* The contents a panic of user code may leave in a sheltered call (below). *)
Section PanicSpec.
  Context {L R : Type} (eL : L -> L -> bool) (eR : R -> R -> bool).
  Notation contents := (contents L R).

  Definition s_panicked_item (G : contents) (x : option L * R) (G' : contents) : Prop :=
    G' = G \/ (fst x = None /\ G' = s_remove_right eR G (snd x)).
  Definition s_panicked_items (G : contents) (items : list (option L * R)) (G' : contents) : Prop :=
    G' = G \/ exists done_ x todo, items = done_ ++ x :: todo /\
      s_panicked_item (fold_left (s_insert_item eL eR) done_ G) x G'.
  Definition s_panicked (G : contents) (o : op L R) (G' : contents) : Prop :=
    match o with
    | InsertRemove l r =>
        G' = G \/ G' = s_remove_left eL G l \/ G' = s_remove_right eR (s_remove_left eL G l) r
    | InsertRight r | RemoveRight r | Remove _ r => G' = G \/ G' = s_remove_right eR G r
    | SwapRight old new => G' = G \/ (s_contains_right eR G old = false /\ G' = s_remove_right eR G new)
    | SwapRightRemove old new =>
        G' = G \/ G' = s_remove_right eR G (if s_contains_right eR G old then old else new)
    | ExtendPairs xs => s_panicked_items G (map (fun p => (Some (fst p), snd p)) xs) G'
    | Extend xs => s_panicked_items G xs G'
    | _ => G' = G
    end.

  (* histories in which calls may panic *)
  Inductive f_run : contents -> list (op L R * fuse) -> contents -> list (out L R) -> Prop :=
  | f_run_nil : forall G, f_run G [] G []
  | f_run_step : forall G o w G1 a ops G2 as_,
      s_step eL eR G o G1 a -> f_run G1 ops G2 as_ -> f_run G ((o, w) :: ops) G2 (a :: as_)
  | f_run_panic : forall G o w G1 ops G2 as_,
      w <> None -> s_panicked G o G1 -> f_run G1 ops G2 as_ -> f_run G ((o, w) :: ops) G2 (OPanic :: as_).
End PanicSpec.

Section Props.
  Context {L R S : Type}.
  Variable E : env L R S.
  Hypothesis OK : lawful E.
  Variable F : fault.
  Notation map' := (gmap L R S).
  Notation contents := (contents L R).
  Notation s_panicked := (s_panicked (eqL E) (eqR E)).
  Notation s_panicked_items := (s_panicked_items (eqL E) (eqR E)).
  Notation f_run := (f_run (eqL E) (eqR E)).

  (* ---- C99 ---- a call that neither adds items nor removes a right item is atomic: if user
     code panics in it, the map is the same as before the call, bit by bit.  Any map, any order
     of calls of user code. *)
  Theorem C99_atomic : forall m o w, modest o = true ->
    u_step E F m o w = step E m o \/ (w <> None /\ u_step E F m o w = (m, OPanic)).
  Proof.
    intros m o w A. destruct (u_step_cases E F m o w) as [?|(N & m' & Q & H)]; [left; auto|].
    right. split; auto. destruct o; try discriminate A; cbn [P_step] in H; subst; auto.
  Qed.
  (* ==: what map_eq says, or a panic *)
  Theorem C99_eq : forall m m' w,
    (exists w', u_map_eq E m m' w = inner (map_eq E m m') w') \/ (w <> None /\ u_map_eq E m m' w = Panic None).
  Proof.
    intros m m' w. destruct (ag_map_eq E m m' w) as [(w' & _ & H)|H]; [left; eauto|right; auto].
  Qed.
  (* nothing of this is needed when user code returns *)
  Theorem C99_calm : forall m o, u_step E F m o None = step E m o.
  Proof. intros m o. apply u_step_calm. Qed.

  (* ---- C100: the other calls, where they do no harm ---- *)
  Definition room (k : N) (m : map') : Prop := room_for (lo E) k (left_set m) /\ room_for (lo E) k (right_set m).
  (* r has at most one left item *)
  Definition few (m : map') (r : R) : Prop :=
    forall it, get_left_iter E m r = Some it -> (pair_len it <= 1)%nat.
  Definition few1 (m : map') (o : op L R) : Prop := match o with InsertRight r => few m r | _ => True end.
  (* calls in which user code may panic without harm *)
  Definition sheltered (m : map') (o : op L R) : Prop :=
    match o with
    | Insert _ _ => room 1 m
    | InsertRemove l r => room 1 m /\ few m r
    | InsertRight r => room_for (lo E) 1 (right_set m) /\ few m r
    | RemoveRight r | Remove _ r => few m r
    | InsertLeft _ r => contains_right E m r = false
    | Pair l r => contains_left E m l = false \/ contains_right E m r = false
    | SwapRight old new | SwapRightRemove old new =>
        room_for (lo E) 1 (right_set m) /\
        if contains_right E m old then is_right_paired E m old = false else few m new
    | ExtendPairs xs => room (N.of_nat (length xs)) m
    | Extend xs => room (N.of_nat (length xs)) m /\ guarded E few1 m (map item_op xs)
    | _ => True
    end.
  (* a calm history (GroupHistory.v) whose calls return, except where sheltered *)
  Fixpoint f_guarded (m : map') (ops : list (op L R * fuse)) : Prop :=
    match ops with
    | [] => True
    | (o, w) :: t => calm E m o /\ (w = None \/ sheltered m o) /\ f_guarded (fst (u_step E F m o w)) t
    end.

  Lemma reach : forall k m, reachable E k m -> exists s lc rc rs ps, holds E m rs ps /\
    Repr E (true, true) s lc rc m (GC rs ps) /\ lc + k < two64 /\ rc + k < two64.
  Proof.
    intros k m H. apply (reachable_repr E OK) in H as (s & lc & rc & G & H & B1 & B2).
    apply (view E OK) in H as (rs & ps & V & _ & _ & H). exists s, lc, rc, rs, ps. auto.
  Qed.
  Lemma step_calm : forall s lc rc m G o, Repr E (true, true) s lc rc m G -> lc + ids o < two64 ->
    rc + ids o < two64 -> calm E m o ->
    exists G' lc' rc', s_step (eqL E) (eqR E) G o G' (snd (step E m o)) /\
      Repr E (true, true) s lc' rc' (fst (step E m o)) G' /\ lc' <= lc + ids o /\ rc' <= rc + ids o.
  Proof.
    intros s lc rc m G o H B1 B2 C. assert (LO := calm_loose E OK _ _ _ _ _ _ H B1 B2 C).
    destruct (step_ok E OK _ _ _ _ _ _ o H) as (b & G' & lc' & rc' & S1 & H1 & T & U & C1 & C2); auto.
    exists G', lc', rc'. split; auto. split; [|auto].
    assert (X : guarded E (calm E) m [o]) by (split; [auto|exact I]).
    apply guarded_calm_tidy_steady in X as [[Y1 _] [Y2 _]]. destruct b as [b1 b2]. simpl in *.
    rewrite (T eq_refl Y1), (U eq_refl Y2) in H1. exact H1.
  Qed.

  Section Roomy.
  Hypothesis FO : fault_ok F.
  Hypothesis CO : capacity_ok (lo E).
  Hypothesis CA : calm_ok (lo E).

  Lemma not_full_l : forall k m, room_for (lo E) k (left_set m) -> full_l E k m -> False.
  Proof. intros k m H FU. apply FU. auto. Qed.
  Lemma not_full_r : forall k m, room_for (lo E) k (right_set m) -> full_r E k m -> False.
  Proof. intros k m H FU. apply FU. auto. Qed.
  Lemma few_group : forall s lc rc m G r, Repr E (true, true) s lc rc m G -> few m r ->
    s_contains_right (eqR E) G r = true -> (length (group (eqR E) G r) <= 1)%nat.
  Proof.
    intros s lc rc m G r H FW C. assert (CL := tame_all_clean E OK _ _ _ _ _ _ H).
    assert (X := get_left_iter_ok E OK _ _ _ _ _ _ r H (CL r)). destruct (get_left_iter E m r) as [it|] eqn:Q.
    - destruct X as (ls & g & _ & LN & SG & P). unfold s_get_left_iter in SG.
      rewrite (contains_r_find E) in C. destruct (find_r (eqR E) G r); [|discriminate].
      injection SG as <-. rewrite <- (Permutation_length P), <- LN. apply FW; auto.
    - unfold s_get_left_iter in X. rewrite (contains_r_find E) in C. destruct (find_r (eqR E) G r); discriminate.
  Qed.
  Lemma few_half : forall (G : contents) r G' (xs : list L), (s_contains_right (eqR E) G r = true -> (length (group (eqR E) G r) <= 1)%nat) ->
    s_half_remove (eqR E) G r G' xs -> G' = s_remove_right (eqR E) G r /\ xs = [].
  Proof.
    intros G r G' xs FW (C & -> & gone & NE & P). split; auto. apply FW in C.
    rewrite <- (Permutation_length P), app_length in C. destruct gone; [congruence|]. destruct xs; auto. simpl in C. lia.
  Qed.
  (* removing a left item takes none into a group *)
  Lemma few_less : forall (G : contents) l r, (s_contains_right (eqR E) G r = true -> (length (group (eqR E) G r) <= 1)%nat) ->
    s_contains_right (eqR E) (s_remove_left (eqL E) G l) r = true ->
    (length (group (eqR E) (s_remove_left (eqL E) G l) r) <= 1)%nat.
  Proof.
    intros [gr gp] l r FW C. apply FW in C. unfold group, s_remove_left, del_l in *. simpl in *. rewrite map_length in *.
    clear FW. revert C. induction gp as [|p t IH]; simpl; auto. destruct (is_l (eqL E) l p) eqn:Q1; simpl;
      destruct (is_r (eqR E) r p); simpl; intros C; try (apply IH; lia).
    assert (X : forall (t : list (L * R)), (length (filter (is_r (eqR E) r) (filter (fun p => negb (is_l (eqL E) l p)) t)) <=
      length (filter (is_r (eqR E) r) t))%nat).
    { clear. induction t as [|p t IH]; simpl; auto. destruct (is_l (eqL E) l p); simpl; destruct (is_r (eqR E) r p); simpl; lia. }
    specialize (X t). lia.
  Qed.
  Lemma unpaired_group : forall s lc rc m G r, Repr E (true, true) s lc rc m G -> is_right_paired E m r = false ->
    group (eqR E) G r = [] /\ s_cut (eqR E) G r = G.
  Proof.
    intros s lc rc m G r H U. assert (CL := tame_all_clean E OK _ _ _ _ _ _ H).
    rewrite (is_right_paired_ok E OK _ _ _ _ _ _ r H (CL r)) in U. unfold s_is_right_paired in U.
    rewrite existsb_false in U. unfold group, s_cut. destruct G as [gr gp]. simpl in *. split.
    - enough (X : filter (is_r (eqR E) r) gp = []) by (rewrite X; auto). clear H. induction gp as [|p t IH]; simpl; auto. rewrite (U p) by (left; auto).
      apply IH. intros x Hx. apply U. right; auto.
    - f_equal. apply filter_all_true. intros p Hp. rewrite U; auto.
  Qed.

  Lemma half_items : forall items s lc rc m G G' xs pd, Repr E (true, true) s lc rc m G ->
    lc + N.of_nat (length items) < two64 -> rc + N.of_nat (length items) < two64 ->
    guarded E (loose1 E) m (map item_op items) -> guarded E few1 m (map item_op items) ->
    s_half_extend (eqL E) (eqR E) False False (lossless F) G items G' xs pd ->
    s_panicked_items G items G' /\ xs = [] /\ pd = None.
  Proof.
    induction items as [|x items IH]; intros s lc rc m G G' xs pd H B1 B2 GD GF (d & y & t & Q & HI).
    { destruct d; discriminate. }
    cbn [length] in *. rewrite Nat2N.inj_succ in *. cbn [map guarded] in GD, GF.
    destruct GD as [GD1 GD2], GF as [GF1 GF2]. destruct d as [|x' d]; injection Q as <- ->.
    - simpl in HI.
      assert (Z : s_panicked_item (eqR E) G x G' /\ xs = [] /\ pd = None).
      { destruct HI as [(-> & -> & ->)|HI]; [split; [left; auto|auto]|]. destruct x as [[l|] r]; simpl in HI.
        - unfold s_half_insert in HI. destruct (find_l (eqL E) G l), (find_r (eqR E) G r); try contradiction;
            unfold loses_l, loses_r in HI; tauto.
        - destruct HI as [[HI|[HI|HI]] ->].
          + apply few_half in HI as [-> ->]; [split; [right; auto|auto]|].
            intros C. eapply few_group; eauto.
          + destruct HI as [-> ->]. split; [right; auto|auto].
          + destruct HI as [[] _]. }
      destruct Z as (Z1 & Z2 & Z3). split; auto. right. exists [], x, t. split; auto.
    - assert (Z : s_panicked_items (s_insert_item (eqL E) (eqR E) G x) (d ++ y :: t) G' /\ xs = [] /\ pd = None).
      { destruct x as [[l|] r]; cbn [item_op fst snd loose1 step] in *.
        - destruct GD1 as [AP LK].
          destruct (insert_ok E OK _ _ _ _ _ _ l r H) as (m1 & lc1 & rc1 & Q1 & H1 & C1 & C2); auto; try lia.
          rewrite Q1 in GD2, GF2. cbn [via fst] in GD2, GF2.
          eapply IH; [exact H1| | |exact GD2|exact GF2|]; try lia. exists d, y, t. split; auto.
        - destruct (insert_right_ok E OK _ _ _ _ _ _ r H) as (m1 & w & Q1 & _ & H1); auto; try lia.
          rewrite Q1 in GD2, GF2. cbn [via fst] in GD2, GF2.
          eapply IH; [exact H1| | |exact GD2|exact GF2|]; try lia. exists d, y, t. split; auto. }
      destruct Z as ([Z1|(d' & y' & t' & Q' & Z1)] & Z2 & Z3); split; auto; right.
      + destruct d as [|z d]; [exists [x], y, t|exists [x], z, (d ++ y :: t)]; split; auto; left; auto.
      + exists (x :: d'), y', t'. split; auto. rewrite Q'. auto.
  Qed.
  Lemma guarded_few_pairs : forall (xs : list (L * R)) m, guarded E few1 m (map pair_op xs).
  Proof. induction xs; intros m; cbn [map guarded]; auto. split; [exact I|auto]. Qed.
  Lemma half_extend_false : forall (fl fr keep : Prop) G items G' xs pd, (fl -> False) -> (fr -> False) ->
    s_half_extend (eqL E) (eqR E) fl fr keep G items G' xs pd ->
    s_half_extend (eqL E) (eqR E) False False keep G items G' xs pd.
  Proof.
    intros fl fr keep G items G' xs pd H1 H2 (d & x & t & -> & H). exists d, x, t. split; auto.
    eapply half_item_mono; [exact H1|exact H2|exact H].
  Qed.

  Lemma sheltered_half : forall s lc rc m G o G' xs pd, Repr E (true, true) s lc rc m G ->
    lc + ids o < two64 -> rc + ids o < two64 -> loose E m o -> sheltered m o ->
    s_wrecked (eqL E) (eqR E) (full_l E (ids o) m) (full_r E (ids o) m) (lossless F) G o G' xs pd ->
    s_panicked G o G' /\ xs = [] /\ pd = None.
  Proof.
    intros s lc rc m G o G' xs pd H B1 B2 GL SH [(-> & -> & ->)|W].
    { split; [|auto]. destruct o; cbn [s_panicked]; auto; left; auto. }
    assert (FG : forall r, few m r -> s_contains_right (eqR E) G r = true -> (length (group (eqR E) G r) <= 1)%nat)
      by (intros r FW C; eapply few_group; eauto).
    assert (HR : forall r, few m r -> room_for (lo E) 1 (right_set m) ->
      s_half_insert_right (eqR E) (full_r E 1 m) (lossless F) G r G' xs -> G' = s_remove_right (eqR E) G r /\ xs = []).
    { intros r FW RM [W1|[W1|[W1 _]]]; [apply few_half in W1; auto|auto|destruct (not_full_r _ _ RM W1)]. }
    destruct o; cbn [s_panicked sheltered ids] in *; try contradiction.
    - (* insert *) destruct SH as [S1 S2]. unfold s_half_insert, loses_l, loses_r in W.
      assert (N1 := not_full_l _ _ S1). assert (N2 := not_full_r _ _ S2).
      destruct (find_l (eqL E) G l), (find_r (eqR E) G r); tauto.
    - (* insert_remove *) destruct SH as [[S1 S2] FW], W as [W ->].
      assert (N1 := not_full_l _ _ S1). assert (N2 := not_full_r _ _ S2).
      destruct W as [[-> ->]|[W|[[-> ->]|[[[W _] _]|[W _]]]]]; auto; try contradiction.
      apply few_half in W as [-> ->]; auto. apply few_less; auto.
    - (* insert_left *) destruct W as (C & _). rewrite <- (contains_right_ok E OK _ _ _ _ _ _ _ H) in C. congruence.
    - (* insert_right *) destruct SH as [S1 FW], W as [W ->]. destruct (HR _ FW S1 W) as [-> ->]. auto.
    - (* swap_right *) destruct SH as [S1 FW], W as [W ->]. rewrite (contains_right_ok E OK _ _ _ _ _ _ _ H) in FW.
      destruct (s_contains_right (eqR E) G old) eqn:C.
      + destruct (unpaired_group _ _ _ _ _ _ H FW) as [Q1 Q2]. unfold s_half_swap in W. rewrite Q1, Q2 in W.
        destruct W as (_ & [[-> ->]|[W _]]); auto. destruct (not_full_r _ _ S1 W).
      + destruct (HR _ FW S1 W) as [-> ->]. auto.
    - (* swap_right_remove *) destruct SH as [S1 FW], W as [W ->]. rewrite (contains_right_ok E OK _ _ _ _ _ _ _ H) in FW.
      destruct (s_contains_right (eqR E) G old) eqn:C.
      + destruct (unpaired_group _ _ _ _ _ _ H FW) as [Q1 Q2]. unfold s_half_swap in W. rewrite Q1 in W.
        destruct W as (_ & [[-> ->]|[W _]]); auto. destruct (not_full_r _ _ S1 W).
      + destruct (HR _ FW S1 W) as [-> ->]. auto.
    - (* pair *) destruct W as [(C1 & p & C2 & _) _]. exfalso.
      rewrite (contains_left_ok E OK _ _ _ _ _ _ _ H), (contains_right_ok E OK _ _ _ _ _ _ _ H),
        (contains_l_find E), C2, C1 in SH. destruct SH; discriminate.
    - (* remove *) destruct W as (_ & W & ->). apply few_half in W as [-> ->]; auto.
    - (* remove_right *) destruct W as (W & ->). apply few_half in W as [-> ->]; auto.
    - (* extend pairs *) destruct SH as [S1 S2].
      destruct (half_items (map (fun p => (Some (fst p), snd p)) xs0) s lc rc m G G' xs pd) as (Z1 & Z2 & Z3);
        rewrite ?map_length; auto.
      + rewrite map_pair_item. exact GL.
      + rewrite map_pair_item. apply guarded_few_pairs.
      + eapply half_extend_false; [|  |exact W]; [apply not_full_l|apply not_full_r]; auto.
    - (* extend *) destruct SH as [[S1 S2] FW].
      destruct (half_items xs0 s lc rc m G G' xs pd) as (Z1 & Z2 & Z3); auto.
      eapply half_extend_false; [|  |exact W]; [apply not_full_l|apply not_full_r]; auto.
  Qed.
  Lemma loose_wreck_guard : forall m o, loose E m o -> wreck_guard E m o.
  Proof. intros m o H. destruct o; try exact I; exact H. Qed.
  Lemma sheltered_damage : forall m o, sheltered m o -> damage E F m o -> False.
  Proof.
    intros m o SH DM. destruct o; cbn [sheltered damage ids] in *; try contradiction.
    - destruct DM as [FU _]. exact (not_full_l _ _ (proj1 SH) FU).
    - destruct DM as [FU _]. exact (not_full_l _ _ (proj1 (proj1 SH)) FU).
    - destruct DM as [C _]. congruence.
    - destruct DM as [FU _]. exact (not_full_l _ _ (proj1 SH) FU).
    - destruct DM as [FU _]. exact (not_full_l _ _ (proj1 (proj1 SH)) FU).
  Qed.
  Lemma sheltered_panic : forall s lc rc m G o m', Repr E (true, true) s lc rc m G ->
    lc + ids o < two64 -> rc + ids o < two64 -> calm E m o -> sheltered m o -> P_step E F o m m' ->
    exists G' lc' rc', s_panicked G o G' /\ Repr E (true, true) s lc' rc' m' G' /\ lc' <= lc + ids o /\ rc' <= rc + ids o.
  Proof.
    intros s lc rc m G o m' H B1 B2 C SH P. assert (LO := calm_loose E OK _ _ _ _ _ _ H B1 B2 C).
    destruct (step_wreck E OK F FO _ _ _ _ _ _ _ _ H (loose_wreck_guard _ _ LO) B1 B2 P)
      as (G' & xs & pd & W & b' & lc' & rc' & H' & CB & C1 & C2).
    destruct (sheltered_half _ _ _ _ _ _ _ _ _ H B1 B2 LO SH W) as (Z & -> & ->).
    exists G', lc', rc'. split; auto. split; [|auto]. destruct CB as [->|[DM _]]; [|destruct (sheltered_damage _ _ SH DM)].
    apply wrepr_repr; auto.
  Qed.

  (* one call *)
  Theorem C100_call : forall k m o w, reachable E k m -> ids o <= k -> calm E m o -> sheltered m o ->
    u_step E F m o w = step E m o \/
    (w <> None /\ exists m' G', u_step E F m o w = (m', OPanic) /\
       (exists rs ps, holds E m rs ps /\ s_panicked (GC rs ps) o G') /\ behaves_as E (k - ids o) m' G').
  Proof.
    intros k m o w H K C SH. destruct (u_step_cases E F m o w) as [Q|(N & m' & Q & P)]; [left; auto|right].
    split; auto. apply reach in H as (s & lc & rc & rs & ps & V & H & B1 & B2).
    destruct (sheltered_panic s lc rc m (GC rs ps) o m' H) as (G' & lc' & rc' & Z & H' & C1 & C2); auto; try lia.
    exists m', G'. split; auto. split; [exists rs, ps; auto|].
    intros ops B GD. destruct (run_calm E OK ops _ _ _ _ _ H') as (G2 & lc2 & rc2 & SR & H2 & _); auto; try lia.
    destruct (view E OK _ _ _ _ _ _ H2) as (rs' & ps' & V' & P1 & P2 & _). exists G2, rs', ps'. auto.
  Qed.
  Lemma u_run_ok : forall ops s lc rc m G, Repr E (true, true) s lc rc m G ->
    lc + budget (map fst ops) < two64 -> rc + budget (map fst ops) < two64 -> f_guarded m ops ->
    exists G' lc' rc', f_run G ops G' (snd (u_run E F m ops)) /\ Repr E (true, true) s lc' rc' (fst (u_run E F m ops)) G'.
  Proof.
    induction ops as [|[o w] ops IH]; intros s lc rc m G H B1 B2 GD; cbn [u_run map budget fst f_guarded] in *.
    - exists G, lc, rc. split; auto. constructor.
    - destruct GD as (G0 & G1 & G2).
      assert (X : exists G1 lc1 rc1, (s_step (eqL E) (eqR E) G o G1 (snd (u_step E F m o w)) \/
                    (w <> None /\ snd (u_step E F m o w) = OPanic /\ s_panicked G o G1)) /\
                  Repr E (true, true) s lc1 rc1 (fst (u_step E F m o w)) G1 /\ lc1 <= lc + ids o /\ rc1 <= rc + ids o).
      { destruct (u_step_cases E F m o w) as [->|(N & m' & Q & P)].
        - destruct (step_calm s lc rc m G o) as (G' & lc' & rc' & ? & ? & ? & ?); auto; try lia.
          exists G', lc', rc'. auto.
        - destruct G1 as [->|SH]; [congruence|].
          destruct (sheltered_panic s lc rc m G o m') as (G' & lc' & rc' & ? & ? & ? & ?); auto; try lia.
          rewrite Q. exists G', lc', rc'. cbn [fst snd]. auto. }
      destruct X as (G' & lc1 & rc1 & S1 & H1 & C1 & C2). destruct (u_step E F m o w) as [m1 a]. cbn [fst snd] in *.
      destruct (IH s lc1 rc1 m1 G' H1) as (P2 & lc2 & rc2 & S2 & H2); auto; try lia.
      destruct (u_run E F m1 ops) as [m2 as_]. cbn [fst snd] in *. exists P2, lc2, rc2. split; auto.
      destruct S1 as [S1|(N & -> & S1)]; [eapply f_run_step|eapply f_run_panic]; eauto.
  Qed.
  (* whole histories: panics of user code in sheltered calls are as harmless as [f_run] says,
     and what follows them is not affected *)
  Theorem C100_history : forall k m ops, reachable E k m -> budget (map fst ops) <= k -> f_guarded m ops ->
    exists rs ps G' rs' ps', holds E m rs ps /\ f_run (GC rs ps) ops G' (snd (u_run E F m ops)) /\
      holds E (fst (u_run E F m ops)) rs' ps' /\ Permutation rs' (g_rights G') /\ Permutation ps' (g_pairs G').
  Proof.
    intros k m ops H K GD. apply reach in H as (s & lc & rc & rs & ps & V & H & B1 & B2).
    destruct (u_run_ok ops s lc rc m (GC rs ps) H) as (G' & lc' & rc' & HR & H'); auto; try lia.
    destruct (view E OK _ _ _ _ _ _ H') as (rs' & ps' & V' & P1 & P2 & _). exists rs, ps, G', rs', ps'. auto.
  Qed.
  End Roomy.

  (* the same for histories in which only modest calls panic; nothing need be known about
     capacities or groups *)
  Fixpoint calmly_guarded (m : map') (ops : list (op L R * fuse)) : Prop :=
    match ops with
    | [] => True
    | (o, w) :: t => calm E m o /\ (w = None \/ modest o = true) /\ calmly_guarded (fst (u_step E F m o w)) t
    end.
  Theorem C99_history : forall k m ops, reachable E k m -> budget (map fst ops) <= k -> calmly_guarded m ops ->
    exists rs ps G' rs' ps', holds E m rs ps /\ f_run (GC rs ps) ops G' (snd (u_run E F m ops)) /\
      holds E (fst (u_run E F m ops)) rs' ps' /\ Permutation rs' (g_rights G') /\ Permutation ps' (g_pairs G').
  Proof.
    intros k m ops H K GD. apply reach in H as (s & lc & rc & rs & ps & V & H & B1 & B2).
    assert (X : exists G' lc' rc', f_run (GC rs ps) ops G' (snd (u_run E F m ops)) /\
                  Repr E (true, true) s lc' rc' (fst (u_run E F m ops)) G').
    { assert (B1' : lc + budget (map fst ops) < two64) by lia. assert (B2' : rc + budget (map fst ops) < two64) by lia.
      clear V B1 B2 K. revert lc rc m H GD B1' B2'. generalize (GC rs ps). clear rs ps.
      induction ops as [|[o w] ops IH]; intros G lc rc m H GD B1 B2; cbn [u_run map budget fst calmly_guarded] in *.
      - exists G, lc, rc. split; auto. constructor.
      - destruct GD as (G0 & G1 & G2).
        assert (X : exists G1 lc1 rc1, (s_step (eqL E) (eqR E) G o G1 (snd (u_step E F m o w)) \/
                      (w <> None /\ snd (u_step E F m o w) = OPanic /\ s_panicked G o G1)) /\
                    Repr E (true, true) s lc1 rc1 (fst (u_step E F m o w)) G1 /\ lc1 <= lc + ids o /\ rc1 <= rc + ids o).
        { destruct G1 as [->|A].
          - rewrite C99_calm. destruct (step_calm s lc rc m G o) as (G' & lc' & rc' & ? & ? & ? & ?); auto; try lia.
            exists G', lc', rc'. auto.
          - destruct (C99_atomic m o w A) as [->|[N ->]].
            + destruct (step_calm s lc rc m G o) as (G' & lc' & rc' & ? & ? & ? & ?); auto; try lia.
              exists G', lc', rc'. auto.
            + exists G, lc, rc. cbn [fst snd]. split; [right|split; [auto|lia]]. repeat split; auto.
              destruct o; try discriminate A; reflexivity. }
        destruct X as (G' & lc1 & rc1 & S1 & H1 & C1 & C2). destruct (u_step E F m o w) as [m1 a]. cbn [fst snd] in *.
        destruct (IH G' lc1 rc1 m1 H1) as (P2 & lc2 & rc2 & S2 & H2); auto; try lia.
        destruct (u_run E F m1 ops) as [m2 as_]. cbn [fst snd] in *. exists P2, lc2, rc2. split; auto.
        destruct S1 as [S1|(N & -> & S1)]; [eapply f_run_step|eapply f_run_panic]; eauto. }
    destruct X as (G' & lc' & rc' & HR & H').
    destruct (view E OK _ _ _ _ _ _ H') as (rs' & ps' & V' & P1 & P2 & _). exists rs, ps, G', rs', ps'. auto.
  Qed.
End Props.

(* ---- cases ---- *)
Ltac run_all := cbv zeta; repeat match goal with |- _ /\ _ => split; [vm_compute; reflexivity|] end;
  vm_compute; reflexivity.

(* with_capacity_and_hasher(8): 10 has the left items 1 and 2, 20 has 3, 30 has none *)
Definition f_cap : N := hb_new lo_room 8.
Definition f_hist : list (op item item) :=
  [Insert (it 1) (it 10); Insert (it 2) (it 10); Insert (it 3) (it 20); InsertRight (it 30)].
Definition fm : gmap item item N := fst (run env_room (with_hasher 0 f_cap f_cap) f_hist).
Lemma fm_reachable : reachable env_room 9 fm.
Proof.
  exists 0, f_cap, f_cap, f_hist. split; [reflexivity|]. split; [|reflexivity].
  repeat (split; [first [exact I|vm_compute; reflexivity]|]). exact I.
Qed.
Lemma fm_room : room env_room 1 fm.
Proof. split; vm_compute; discriminate. Qed.
Example fm_holds : holds env_room fm [it 30; it 20; it 10] [(it 3, it 20); (it 2, it 10); (it 1, it 10)].
Proof. split; vm_compute; reflexivity. Qed.

(* C99: reads, remove_left, retain half way through, == *)
Definition keep_odd (x : N) (p : item * item) : N * verdict := (x + 1, Some (N.odd (fst (fst p)))).
Example C99_case :
  u_step env_room f_in_place fm (RemoveLeft (it 2)) (Some 0%nat) = (fm, OPanic) /\
  u_step env_room f_in_place fm (RemoveLeft (it 2)) (Some 1%nat) = (fm, OPanic) /\
  u_step env_room f_in_place fm (RemoveLeft (it 2)) (Some 9%nat) = step env_room fm (RemoveLeft (it 2)) /\
  snd (step env_room fm (RemoveLeft (it 2))) = OL (Some (it 2)) /\
  u_step env_room f_in_place fm (ArePaired (it 2) (it 10)) (Some 3%nat) = (fm, OPanic) /\
  snd (step env_room fm (ArePaired (it 2) (it 10))) = OBool true /\
  snd (u_step env_room f_in_place fm (RetainPaired N keep_odd 0) None) = OUnit /\
  u_map_eq env_room fm fm (Some 3%nat) = Panic None /\
  u_map_eq env_room fm fm (Some 100%nat) <> Panic None.
Proof. repeat match goal with |- _ /\ _ => split; [vm_compute; reflexivity|] end. vm_compute. discriminate. Qed.
Definition c_ops : list (op item item * fuse) :=
  [(RemoveLeft (it 2), Some 1%nat); (Insert (it 2) (it 20), None); (ArePaired (it 2) (it 10), Some 3%nat);
   (GetLeftIter (it 10), Some 0%nat); (RemoveRight (it 20), None); (IterPairedAll, None)].
Lemma c_ops_guarded : calmly_guarded env_room f_in_place fm c_ops.
Proof.
  repeat (split; [first [exact I|vm_compute; reflexivity]|split; [first [left; reflexivity|right; reflexivity]|]]).
  exact I.
Qed.
Example C99_history_case :
  reachable env_room 9 fm /\ budget (map fst c_ops) = 1 /\ calmly_guarded env_room f_in_place fm c_ops /\
  snd (u_run env_room f_in_place fm c_ops) =
    [OPanic; OUnit; OPanic; OPanic; OGroup (Some ([it 2; it 3], it 20)); OPairs [(it 1, it 10)]].
Proof. split; [exact fm_reachable|]. split; [reflexivity|]. split; [exact c_ops_guarded|]. run_all. Qed.

(* C100: what panics at different moments leave behind *)
Definition remains (o : op item item) (w : nat) : out item item * outcome (list item) * outcome (list (item * item)) :=
  let (m', a) := u_step env_room f_in_place fm o (Some w) in
  (a, right_rest (iter_right m'), paired_rest env_room m' (iter_paired m')).
Example C100_case : room env_room 1 fm /\ few env_room fm (it 20) /\ ~ few env_room fm (it 10) /\
  remains (RemoveRight (it 20)) 2 =
    (OPanic, Done [it 30; it 20; it 10], Done [(it 3, it 20); (it 2, it 10); (it 1, it 10)]) /\
  remains (RemoveRight (it 20)) 3 = (OPanic, Done [it 30; it 10], Done [(it 2, it 10); (it 1, it 10)]) /\
  remains (RemoveRight (it 20)) 4 =
    (OGroup (Some ([it 3], it 20)), Done [it 30; it 10], Done [(it 2, it 10); (it 1, it 10)]) /\
  remains (InsertRemove (it 2) (it' 20)) 2 =
    (OPanic, Done [it 30; it 20; it 10], Done [(it 3, it 20); (it 2, it 10); (it 1, it 10)]) /\
  remains (InsertRemove (it 2) (it' 20)) 3 = (OPanic, Done [it 30; it 20; it 10], Done [(it 3, it 20); (it 1, it 10)]) /\
  remains (InsertRemove (it 2) (it' 20)) 6 = (OPanic, Done [it 30; it 10], Done [(it 1, it 10)]) /\
  remains (InsertRemove (it 2) (it' 20)) 9 =
    (OInsRem (Some (it 2), Some ([it 3], it 20)), Done [it' 20; it 30; it 10], Done [(it 2, it' 20); (it 1, it 10)]) /\
  remains (SwapRightRemove (it 30) (it 40)) 2 =
    (OPanic, Done [it 20; it 10], Done [(it 3, it 20); (it 2, it 10); (it 1, it 10)]) /\
  remains (Insert (it 7) (it 70)) 7 =
    (OPanic, Done [it 30; it 20; it 10], Done [(it 3, it 20); (it 2, it 10); (it 1, it 10)]).
Proof.
  split; [exact fm_room|]. split; [intros i; vm_compute; intros H; inversion H; simpl; lia|].
  split; [intros H; assert (X : get_left_iter env_room fm (it 10) = Some [(2, 1); (1, 0)]) by (vm_compute; reflexivity);
          apply H in X; simpl in X; lia|].
  run_all.
Qed.
Definition f_ops : list (op item item * fuse) :=
  [(Insert (it 7) (it 70), Some 5%nat); (RemoveRight (it 20), Some 3%nat);
   (Extend [(Some (it 2), it 30); (None, it 20)], Some 5%nat); (RemoveLeft (it 1), None); (SwapRight (it 10) (it 40), Some 2%nat);
   (Pair (it 9) (it 10), Some 0%nat); (IterPairedAll, None); (IterUnpairedAll, None)].
Lemma f_ops_guarded : f_guarded env_room f_in_place fm f_ops.
Proof.
  split; [vm_compute; reflexivity|]. split; [right; split; vm_compute; discriminate|].
  split; [exact I|]. split; [right; intros i; vm_compute; intros H; inversion H; simpl; lia|].
  split; [split; [vm_compute; reflexivity|split; exact I]|].
  split; [right; split; [split; vm_compute; discriminate|split; [exact I|split; [|exact I]]];
          intros i; vm_compute; intros H; inversion H|].
  split; [exact I|]. split; [left; reflexivity|].
  split; [intros _; split; vm_compute; reflexivity|]. split; [right; split; [vm_compute; discriminate|vm_compute; reflexivity]|].
  split; [exact I|]. split; [right; left; vm_compute; reflexivity|].
  split; [exact I|]. split; [left; reflexivity|]. split; [exact I|]. split; [left; reflexivity|exact I].
Qed.
Example C100_history_case :
  reachable env_room 9 fm /\ budget (map fst f_ops) <= 9 /\ f_guarded env_room f_in_place fm f_ops /\
  capacity_ok (lo env_room) /\ calm_ok (lo env_room) /\ fault_ok f_in_place /\
  snd (u_run env_room f_in_place fm f_ops) =
    [OPanic; OPanic; OPanic; OL (Some (it 1)); OPanic; OPanic; OPairs [(it 2, it 30)]; ORs [it 10]].
Proof.
  split; [exact fm_reachable|]. split; [vm_compute; discriminate|]. split; [exact f_ops_guarded|].
  split; [exact lo_room_ok|]. split; [exact lo_room_calm|]. split; [exact f_in_place_ok|]. vm_compute. reflexivity.
Qed.

Print Assumptions C99_atomic.
Print Assumptions C99_eq.
Print Assumptions C99_calm.
Print Assumptions C99_history.
Print Assumptions C100_call.
Print Assumptions C100_history.
