(* GroupMap when the Hash or Eq of the items panics: what a panic leaves behind and how the map
   is mended.  Properties C102 - C105. *)
From Coq Require Import List NArith Lia Bool Permutation PeanoNat.
From Verif Require Import Closures Prelude RawTable GroupMap ListFacts TableFacts SoundTables
  GroupSpec GroupHistory GroupProofs GroupProofs2 GroupProofs3 GroupProofs5 GroupHistoryProofs Concrete
  GroupProps GroupProps3 Capacity GroupCapacity Faults FaultTables GroupFault GroupFaultProofs GroupWreck GroupMend
  GroupFaultProps.
Import ListNotations.
Open Scope N_scope.

Section Props.
  Context {L R S : Type}.
  Variable E : env L R S.
  Hypothesis OK : lawful E.
  Variable F : fault.
  Hypothesis FO : fault_ok F.
  Notation map' := (gmap L R S).
  Notation contents := (contents L R).

  (* loose histories (GroupHistory.v) give the outputs they should *)
  Definition behaves_loosely (k : N) (m : map') (G : contents) : Prop :=
    forall ops, budget ops <= k -> guarded E (loose E) m ops ->
      exists G', s_run (eqL E) (eqR E) G ops G' (snd (run E m ops)) /\ seen_as E (fst (run E m ops)) G' [].
  (* the map can be used as if it had always held G; [dm]: only with care, because right
     items may list left items that got lost *)
  Definition back_to (dm : Prop) (k : N) (m : map') (G : contents) : Prop :=
    behaves_as E k m G \/ (dm /\ behaves_loosely k m G).
  (* What is left: the contents G, the left items xs without right item, and if [pd = Some (l, r)],
     r lists a left item l that is not there.
     remove_left of each item of xs, in any order, panics but mends the map; in the other case
     a second insert_left(l, r) (or insert(l, r) if it adds l) does. *)
  Definition left_with (dm : Prop) (k : N) (m : map') (G : contents) (xs : list L) (pd : option (L * R)) : Prop :=
    seen_as E m G xs /\
    match pd with
    | None => forall ys, Permutation xs ys -> exists m1,
        run E m (map RemoveLeft ys) = (m1, map (fun _ => OPanic) ys) /\ back_to dm k m1 G
    | Some (l, r) => xs = [] /\ exists m0, back_to dm k m0 G /\
        step E m (InsertLeft l r) = step E m0 (InsertLeft l r) /\
        (contains_left E m l = false -> step E m (Insert l r) = step E m0 (Insert l r))
    end.
  (* the call runs as usual, or panics and leaves what W says *)
  Definition leaves (dm : Prop) (k : N) (m : map') (o : op L R) (w : fuse)
      (W : contents -> contents -> list L -> option (L * R) -> Prop) : Prop :=
    u_step E F m o w = step E m o \/
    (w <> None /\ exists m' rs ps G' xs pd, u_step E F m o w = (m', OPanic) /\ holds E m rs ps /\
       W (GC rs ps) G' xs pd /\ left_with dm k m' G' xs pd).

  Lemma repr_behaves : forall s lc rc m G k, Repr E (true, true) s lc rc m G -> lc + k < two64 -> rc + k < two64 ->
    behaves_as E k m G.
  Proof.
    intros s lc rc m G k H B1 B2 ops B GD.
    destruct (run_calm E OK ops _ _ _ _ _ H) as (G2 & lc2 & rc2 & SR & H2 & _); auto; try lia.
    destruct (view E OK _ _ _ _ _ _ H2) as (rs' & ps' & V' & P1 & P2 & _). exists G2, rs', ps'. auto.
  Qed.
  Lemma repr_behaves_loosely : forall b s lc rc m G k, Repr E b s lc rc m G -> lc + k < two64 -> rc + k < two64 ->
    behaves_loosely k m G.
  Proof.
    intros b s lc rc m G k H B1 B2 ops B GD.
    destruct (run_ok E OK ops _ _ _ _ _ _ H) as (b2 & G2 & lc2 & rc2 & SR & H2 & _); auto; try lia.
    exists G2. split; auto. eapply wrepr_seen; eauto. apply repr_wrepr; eauto.
  Qed.
  Lemma wrepr_perm : forall b s lc rc m G xs ys, Permutation xs ys -> WRepr E b s lc rc m G xs ->
    WRepr E b s lc rc m G ys.
  Proof.
    intros b s lc rc m G xs ys P (A & X & D & B & H & -> & -> & T & C).
    symmetry in P. apply Permutation_map_inv in P as (Y & -> & P). exists A, Y, D, B. split; [|auto].
    eapply wreck_perm; eauto.
  Qed.
  Lemma repr_back : forall (dm : Prop) b s lc rc m G k, Repr E b s lc rc m G ->
    (b = (true, true) \/ dm) -> lc + k < two64 -> rc + k < two64 -> back_to dm k m G.
  Proof.
    intros dm b s lc rc m G k H [->|D] B1 B2; [left; eapply repr_behaves; eauto|right].
    split; auto. eapply repr_behaves_loosely; eauto.
  Qed.
  Lemma wrecked_left : forall (dm : Prop) b s lc rc m G xs pd k, Wrecked E b s lc rc m G xs pd ->
    (b = (true, true) \/ dm) -> lc + k < two64 -> rc + k < two64 -> left_with dm k m G xs pd.
  Proof.
    intros dm b s lc rc m G xs [[l r]|] k W D B1 B2; unfold Wrecked in W.
    - destruct W as (-> & m0 & H & PL). split; [eapply planted_seen; eauto|]. split; auto. exists m0.
      split; [eapply repr_back; eauto|]. cbn [step].
      rewrite (planted_insert_left E OK _ _ _ _ _ _ _ _ _ H PL). split; auto.
      intros C. rewrite (planted_insert E OK _ _ _ _ _ _ _ _ _ H PL); auto.
      assert (Q := planted_seen E OK _ _ _ _ _ _ _ _ _ H PL). rewrite (se_contains_left _ _ _ _ Q) in C.
      apply orb_false_iff in C as [C _]. auto.
    - split; [eapply wrepr_seen; eauto|]. intros ys P. apply (wrepr_perm _ _ _ _ _ _ _ _ P) in W.
      apply (wreck_mend E OK) in W as (m1 & Q & H). exists m1. split; auto. eapply repr_back; eauto.
  Qed.

  (* ---- C105 ---- what any one panic leaves in any call of a calm history, and that it can be
     mended (see [left_with]) *)
  Theorem C105_any_call : forall k m o w, reachable E k m -> ids o <= k -> calm E m o ->
    leaves (damage E F m o) (k - ids o) m o w
      (fun G => s_wrecked (eqL E) (eqR E) (full_l E (ids o) m) (full_r E (ids o) m) (lossless F) G o).
  Proof.
    intros k m o w H K C. destruct (u_step_cases E F m o w) as [Q|(N & m' & Q & P)]; [left; auto|right].
    split; auto. apply (reach E OK) in H as (s & lc & rc & rs & ps & V & H & B1 & B2).
    assert (LO : loose E m o) by (eapply (calm_loose E OK); eauto; lia).
    destruct (step_wreck E OK F FO _ _ _ _ _ _ o m' H (loose_wreck_guard E _ _ LO)) as
      (G' & xs & pd & W & b' & lc' & rc' & W' & CB & C1 & C2); auto; try lia.
    exists m', rs, ps, G', xs, pd. split; auto. split; auto. split; auto.
    eapply wrecked_left; [exact W'| |lia|lia]. destruct CB as [->|[D _]]; auto.
  Qed.
  (* the stranded items can be told from the others: they are those not paired with any
     right item *)
  Theorem C105_strays : forall dm k m G xs pd l, left_with dm k m G xs pd ->
    (exists Q, left_rest (iter_left m) = Done Q /\ In l Q) ->
    (In l xs <-> forall Q r, right_rest (iter_right m) = Done Q -> In r Q -> are_paired E m l r = false).
  Proof.
    intros dm k m G xs pd l [SE _] (Q & Q1 & I).
    destruct (se_left _ _ _ _ SE) as (Q' & Q1' & P). rewrite Q1 in Q1'. injection Q1' as <-.
    destruct (se_right _ _ _ _ SE) as (Q2 & Q2' & P2).
    rewrite (seen_strays E OK m G xs l SE) by (eapply Permutation_in; eauto). split.
    - intros N Q3 r E3 Hr. rewrite Q2' in E3. injection E3 as <-. apply N. eapply Permutation_in; eauto.
    - intros N r Hr. eapply N; eauto. eapply Permutation_in; [symmetry; exact P2|auto].
  Qed.
  (* maps after loose histories: the same, with [dm] *)
  Theorem C105_loose_maps : forall k m o w, loosely_reachable E k m -> ids o <= k -> wreck_guard E m o ->
    u_step E F m o w = step E m o \/
    (w <> None /\ exists m' G G' xs pd, u_step E F m o w = (m', OPanic) /\ seen_as E m G [] /\
       s_wrecked (eqL E) (eqR E) (full_l E (ids o) m) (full_r E (ids o) m) (lossless F) G o G' xs pd /\
       left_with True (k - ids o) m' G' xs pd).
  Proof.
    intros k m o w H K C. destruct (u_step_cases E F m o w) as [Q|(N & m' & Q & P)]; [left; auto|right].
    split; auto. apply (loosely_reachable_repr E OK) in H as (b & s & lc & rc & G & H & B1 & B2).
    destruct (step_wreck E OK F FO _ _ _ _ _ _ o m' H C) as
      (G' & xs & pd & W & b' & lc' & rc' & W' & CB & C1 & C2); auto; try lia.
    exists m', G, G', xs, pd. split; auto. split; [eapply wrepr_seen; eauto; apply repr_wrepr; eauto|]. split; auto.
    eapply wrecked_left; [exact W'| |lia|lia]. auto.
  Qed.
  (* nothing is lost if rehashing loses nothing or the left table has room; insert_left is the exception *)
  Theorem C105_undamaged : forall m o, (forall l r, o <> InsertLeft l r) ->
    lossless F \/ (capacity_ok (lo E) /\ calm_ok (lo E) /\ room_for (lo E) (ids o) (left_set m)) -> ~ damage E F m o.
  Proof.
    intros m o N H. unfold damage. destruct o; auto; try (destruct (N l r eq_refl));
      intros [FU LS]; destruct H as [H|H]; auto.
  Qed.

  (* ---- C102: removals ---- *)
  Theorem C102_remove_right_partial : forall k m r w, reachable E k m ->
    leaves False k m (RemoveRight r) w (fun G G' xs pd => pd = None /\
      ((G' = G /\ xs = []) \/ s_half_remove (eqR E) G r G' xs)).
  Proof.
    intros k m r w H. destruct (C105_any_call k m (RemoveRight r) w H) as
      [Q|(N & m' & rs & ps & G' & xs & pd & Q & V & W & LW)]; [cbn; lia|exact I|left; auto|right].
    split; auto. exists m', rs, ps, G', xs, pd. split; auto. split; auto. cbn [ids damage] in LW. rewrite N.sub_0_r in LW.
    split; auto. destruct W as [(-> & -> & ->)|(W & ->)]; auto.
  Qed.
  Theorem C102_remove_partial : forall k m l r w, reachable E k m ->
    leaves False k m (Remove l r) w (fun G G' xs pd => pd = None /\
      ((G' = G /\ xs = []) \/ (s_are_paired (eqL E) (eqR E) G l r = true /\ s_half_remove (eqR E) G r G' xs))).
  Proof.
    intros k m l r w H. destruct (C105_any_call k m (Remove l r) w H) as
      [Q|(N & m' & rs & ps & G' & xs & pd & Q & V & W & LW)]; [cbn; lia|exact I|left; auto|right].
    split; auto. exists m', rs, ps, G', xs, pd. split; auto. split; auto. cbn [ids damage] in LW. rewrite N.sub_0_r in LW.
    split; auto. destruct W as [(-> & -> & ->)|(W1 & W & ->)]; auto.
  Qed.
  Theorem C102_insert_right_partial : forall k m r w, reachable E k m -> 1 <= k ->
    leaves False (k - 1) m (InsertRight r) w (fun G G' xs pd => pd = None /\
      ((G' = G /\ xs = []) \/ s_half_insert_right (eqR E) (full_r E 1 m) (lossless F) G r G' xs)).
  Proof.
    intros k m r w H K. destruct (C105_any_call k m (InsertRight r) w H K I) as
      [Q|(N & m' & rs & ps & G' & xs & pd & Q & V & W & LW)]; [left; auto|right].
    split; auto. exists m', rs, ps, G', xs, pd. split; auto. split; auto. cbn [ids damage] in LW.
    split; auto. destruct W as [(-> & -> & ->)|(W & ->)]; auto.
  Qed.
  Theorem C102_insert_remove_partial : forall k m l r w, reachable E k m -> 1 <= k ->
    leaves (damaged E F 1 m) (k - 1) m (InsertRemove l r) w (fun G G' xs pd => pd = None /\
      ((G' = G /\ xs = []) \/
       s_half_insert_remove (eqL E) (eqR E) (full_l E 1 m) (full_r E 1 m) (lossless F) G l r G' xs)).
  Proof.
    intros k m l r w H K. destruct (C105_any_call k m (InsertRemove l r) w H K I) as
      [Q|(N & m' & rs & ps & G' & xs & pd & Q & V & W & LW)]; [left; auto|right].
    split; auto. exists m', rs, ps, G', xs, pd. split; auto. split; auto. cbn [ids damage] in LW.
    split; auto. destruct W as [(-> & -> & ->)|(W & ->)]; auto.
  Qed.

  (* ---- C103: insert and extend ---- *)
  Theorem C103_insert_partial : forall k m l r w, reachable E k m -> 1 <= k -> are_paired E m l r = false ->
    leaves (damaged E F 1 m) (k - 1) m (Insert l r) w (fun G G' xs pd => unharmed G G' xs pd \/
      s_half_insert (eqL E) (eqR E) (full_l E 1 m) (full_r E 1 m) (lossless F) G l r G' xs pd).
  Proof. intros k m l r w H K A. exact (C105_any_call k m (Insert l r) w H K A). Qed.
  Theorem C103_extend_partial : forall k m items w, reachable E k m -> N.of_nat (length items) <= k ->
    guarded E (calm1 E) m (map item_op items) ->
    leaves (damaged E F (N.of_nat (length items)) m) (k - N.of_nat (length items)) m (Extend items) w
      (fun G G' xs pd => unharmed G G' xs pd \/
         s_half_extend (eqL E) (eqR E) (full_l E (N.of_nat (length items)) m) (full_r E (N.of_nat (length items)) m)
           (lossless F) G items G' xs pd).
  Proof. intros k m items w H K A. exact (C105_any_call k m (Extend items) w H K A). Qed.
  Theorem C103_extend_pairs_partial : forall k m items w, reachable E k m -> N.of_nat (length items) <= k ->
    guarded E (calm1 E) m (map pair_op items) ->
    leaves (damaged E F (N.of_nat (length items)) m) (k - N.of_nat (length items)) m (ExtendPairs items) w
      (fun G G' xs pd => unharmed G G' xs pd \/
         s_half_extend (eqL E) (eqR E) (full_l E (N.of_nat (length items)) m) (full_r E (N.of_nat (length items)) m)
           (lossless F) G (map (fun p => (Some (fst p), snd p)) items) G' xs pd).
  Proof. intros k m items w H K A. exact (C105_any_call k m (ExtendPairs items) w H K A). Qed.

  (* ---- C104: pair, insert_left and swaps ---- *)
  Theorem C104_pair_partial : forall k m l r w, reachable E k m ->
    leaves False k m (Pair l r) w (fun G G' xs pd => pd = None /\
      ((G' = G /\ xs = []) \/ s_half_pair (eqL E) (eqR E) G l r G' xs)).
  Proof.
    intros k m l r w H. destruct (C105_any_call k m (Pair l r) w H) as
      [Q|(N & m' & rs & ps & G' & xs & pd & Q & V & W & LW)]; [cbn; lia|exact I|left; auto|right].
    split; auto. exists m', rs, ps, G', xs, pd. split; auto. split; auto. cbn [ids damage] in LW. rewrite N.sub_0_r in LW.
    split; auto. destruct W as [(-> & -> & ->)|(W & ->)]; auto.
  Qed.
  Theorem C104_insert_left_partial : forall k m l r w, reachable E k m -> 1 <= k ->
    leaves (contains_right E m r = true /\ full_l E 1 m) (k - 1) m (InsertLeft l r) w
      (fun G G' xs pd => unharmed G G' xs pd \/
         s_half_insert_left (eqL E) (eqR E) (full_l E 1 m) (lossless F) G l r G' xs pd).
  Proof. intros k m l r w H K. exact (C105_any_call k m (InsertLeft l r) w H K I). Qed.
  Theorem C104_swap_right_partial : forall k m old new w, reachable E k m -> 1 <= k ->
    calm E m (SwapRight old new) ->
    leaves False (k - 1) m (SwapRight old new) w (fun G G' xs pd => pd = None /\
      ((G' = G /\ xs = []) \/
       if s_contains_right (eqR E) G old
       then s_half_swap (eqR E) (full_r E 1 m) (lossless F) G (s_cut (eqR E) G old) old G' xs
       else s_half_insert_right (eqR E) (full_r E 1 m) (lossless F) G new G' xs)).
  Proof.
    intros k m old new w H K C. destruct (C105_any_call k m (SwapRight old new) w H K C) as
      [Q|(N & m' & rs & ps & G' & xs & pd & Q & V & W & LW)]; [left; auto|right].
    split; auto. exists m', rs, ps, G', xs, pd. split; auto. split; auto. cbn [ids damage] in LW.
    split; auto. destruct W as [(-> & -> & ->)|(W & ->)]; auto.
  Qed.
  Theorem C104_swap_right_remove_partial : forall k m old new w, reachable E k m -> 1 <= k ->
    calm E m (SwapRightRemove old new) ->
    leaves False (k - 1) m (SwapRightRemove old new) w (fun G G' xs pd => pd = None /\
      ((G' = G /\ xs = []) \/
       if s_contains_right (eqR E) G old
       then s_half_swap (eqR E) (full_r E 1 m) (lossless F) G (s_remove_right (eqR E) G old) old G' xs
       else s_half_insert_right (eqR E) (full_r E 1 m) (lossless F) G new G' xs)).
  Proof.
    intros k m old new w H K C. destruct (C105_any_call k m (SwapRightRemove old new) w H K C) as
      [Q|(N & m' & rs & ps & G' & xs & pd & Q & V & W & LW)]; [left; auto|right].
    split; auto. exists m', rs, ps, G', xs, pd. split; auto. split; auto. cbn [ids damage] in LW.
    split; auto. destruct W as [(-> & -> & ->)|(W & ->)]; auto.
  Qed.
End Props.

(* ---- the claims without hypotheses about groups and room are false ---- *)
(* a left item without right item *)
Definition has_stray {L R S} (E : env L R S) (m : gmap L R S) : Prop :=
  exists l Q Q', left_rest (iter_left m) = Done Q /\ In l Q /\ right_rest (iter_right m) = Done Q' /\
    forallb (fun r => negb (are_paired E m l r)) Q' = true.
(* a panic at this moment leaves m' *)
Definition panic_leaves {L R S} (E : env L R S) (F : fault) (m : gmap L R S) (o : op L R) (m' : gmap L R S) : Prop :=
  exists w, u_step E F m o (Some w) = (m', OPanic).

Ltac run_all := cbv zeta; repeat match goal with |- _ /\ _ => split; [vm_compute; reflexivity|] end;
  vm_compute; reflexivity.
(* the tables have room and nothing is lost in rehashing: see fm in GroupFaultProps.v *)
Definition after (m : gmap item item N) (o : op item item) (w : nat) : gmap item item N :=
  fst (u_step env_room f_move m o (Some w)).
Lemma after_panic : forall m o w, snd (u_step env_room f_move m o (Some w)) = OPanic ->
  panic_leaves env_room f_move m o (after m o w).
Proof. intros m o w H. exists w. unfold after. destruct (u_step _ _ _ _ _). simpl in *. subst. auto. Qed.

Theorem C102_remove_right_refuted : exists (E : env item item N) (F : fault) (k : N) (m m' : gmap item item N) (r : item),
  lawful E /\ fault_ok F /\ lossless F /\ capacity_ok (lo E) /\ calm_ok (lo E) /\ reachable E k m /\ 1 <= k /\ room E 1 m /\
  panic_leaves E F m (RemoveRight r) m' /\ has_stray E m' /\ paired_rest E m' (iter_paired m') = Panicked.
Proof.
  exists env_room, f_move, 9, fm, (after fm (RemoveRight (it 10)) 4), (it 10).
  split; [exact env_room_ok|]. split; [exact f_move_ok|]. split; [exact f_move_lossless|]. split; [exact lo_room_ok|].
  split; [exact lo_room_calm|]. split; [exact fm_reachable|]. split; [discriminate|]. split; [exact fm_room|].
  split; [apply after_panic; vm_compute; reflexivity|]. split; [|vm_compute; reflexivity].
  exists (it 1), [it 3; it 1], [it 30; it 20]. split; [vm_compute; reflexivity|]. split; [simpl; auto|]. run_all.
Qed.
Theorem C102_insert_right_refuted : exists (E : env item item N) (F : fault) (k : N) (m m' : gmap item item N) (r : item),
  lawful E /\ fault_ok F /\ lossless F /\ capacity_ok (lo E) /\ calm_ok (lo E) /\ reachable E k m /\ 1 <= k /\ room E 1 m /\
  panic_leaves E F m (InsertRight r) m' /\ has_stray E m' /\ paired_rest E m' (iter_paired m') = Panicked.
Proof.
  exists env_room, f_move, 9, fm, (after fm (InsertRight (it 10)) 4), (it 10).
  split; [exact env_room_ok|]. split; [exact f_move_ok|]. split; [exact f_move_lossless|]. split; [exact lo_room_ok|].
  split; [exact lo_room_calm|]. split; [exact fm_reachable|]. split; [discriminate|]. split; [exact fm_room|].
  split; [apply after_panic; vm_compute; reflexivity|]. split; [|vm_compute; reflexivity].
  exists (it 1), [it 3; it 1], [it 30; it 20]. split; [vm_compute; reflexivity|]. split; [simpl; auto|]. run_all.
Qed.

(* insert while the right table grows; to insert once more panics, for good *)
Definition tm : gmap item item N := fst (run env_room (with_hasher 0 f_cap (hb_new lo_room 3)) f_hist).
Lemma tm_reachable : reachable env_room 9 tm.
Proof.
  exists 0, f_cap, (hb_new lo_room 3), f_hist. split; [reflexivity|]. split; [|reflexivity].
  repeat (split; [first [exact I|vm_compute; reflexivity]|]). exact I.
Qed.
Theorem C103_insert_refuted : exists (E : env item item N) (F : fault) (k : N) (m m' : gmap item item N) (l r : item),
  lawful E /\ fault_ok F /\ lossless F /\ capacity_ok (lo E) /\ calm_ok (lo E) /\ reachable E k m /\ 1 <= k /\
  are_paired E m l r = false /\ panic_leaves E F m (Insert l r) m' /\ has_stray E m' /\
  paired_rest E m' (iter_paired m') = Panicked /\ step E m' (Insert l r) = (m', OPanic).
Proof.
  exists env_room, f_move, 9, tm, (after tm (Insert (it 7) (it 70)) 8), (it 7), (it 70).
  split; [exact env_room_ok|]. split; [exact f_move_ok|]. split; [exact f_move_lossless|]. split; [exact lo_room_ok|].
  split; [exact lo_room_calm|]. split; [exact tm_reachable|]. split; [discriminate|]. split; [vm_compute; reflexivity|].
  split; [apply after_panic; vm_compute; reflexivity|]. split; [|run_all].
  exists (it 7), [it 7; it 3; it 2; it 1], [it 30; it 20; it 10]. split; [vm_compute; reflexivity|].
  split; [simpl; auto|]. run_all.
Qed.
(* The id of the item left behind is given out again.  If the hashes collide, the next insert
   makes the map report a pair that was never inserted. *)
Definition env_room0 : env item item N :=
  Env _ _ _ item_eq item_eq (fun s _ => s) (fun s _ => s) (fun _ p => snd p) lo_room true.
Lemma env_room0_ok : lawful env_room0.
Proof.
  constructor; simpl; auto using item_eq_equiv, lo_room_layout_ok.
Qed.
Definition cm : gmap item item N := fst (run env_room0 (with_hasher 0 f_cap (hb_new lo_room 1)) [Insert (it 1) (it 10)]).
Lemma cm_reachable : reachable env_room0 9 cm.
Proof.
  exists 0, f_cap, (hb_new lo_room 1), [Insert (it 1) (it 10)]. split; [reflexivity|]. split; [|reflexivity].
  split; [vm_compute; reflexivity|exact I].
Qed.
Theorem C103_false_pair_refuted : exists (E : env item item N) (F : fault) (k : N) (m m' : gmap item item N)
    (l r l2 r2 : item),
  lawful E /\ fault_ok F /\ lossless F /\ capacity_ok (lo E) /\ calm_ok (lo E) /\ reachable E k m /\ 2 <= k /\
  panic_leaves E F m (Insert l r) m' /\ snd (step E m' (Insert l2 r2)) = OUnit /\
  eqL E l l2 = false /\ contains_right E m' r2 = false /\
  are_paired E (fst (step E m' (Insert l2 r2))) l r2 = true.
Proof.
  exists env_room0, f_move, 9, cm, (fst (u_step env_room0 f_move cm (Insert (it 7) (it 70)) (Some 4%nat))),
    (it 7), (it 70), (it 8), (it 80).
  split; [exact env_room0_ok|]. split; [exact f_move_ok|]. split; [exact f_move_lossless|]. split; [exact lo_room_ok|].
  split; [exact lo_room_calm|]. split; [exact cm_reachable|]. split; [discriminate|].
  split; [exists 4%nat; vm_compute; reflexivity|]. run_all.
Qed.

(* pair: the left item points to r, but r does not list it *)
Theorem C104_pair_refuted : exists (E : env item item N) (F : fault) (k : N) (m m' : gmap item item N) (l r : item),
  lawful E /\ fault_ok F /\ lossless F /\ capacity_ok (lo E) /\ calm_ok (lo E) /\ reachable E k m /\ 1 <= k /\ room E 1 m /\
  panic_leaves E F m (Pair l r) m' /\ has_stray E m' /\ are_paired E m' l r = false /\
  exists Q, paired_rest E m' (iter_paired m') = Done Q /\ In (l, r) Q.
Proof.
  exists env_room, f_move, 9, fm, (after fm (Pair (it 1) (it 20)) 7), (it 1), (it 20).
  split; [exact env_room_ok|]. split; [exact f_move_ok|]. split; [exact f_move_lossless|]. split; [exact lo_room_ok|].
  split; [exact lo_room_calm|]. split; [exact fm_reachable|]. split; [discriminate|]. split; [exact fm_room|].
  split; [apply after_panic; vm_compute; reflexivity|].
  split; [exists (it 1), [it 3; it 2; it 1], [it 30; it 20; it 10]; split; [vm_compute; reflexivity|]; split; [simpl; auto|]; run_all|].
  split; [vm_compute; reflexivity|].
  exists [(it 3, it 20); (it 2, it 10); (it 1, it 20)]. split; [vm_compute; reflexivity|simpl; auto].
Qed.
(* insert_left: r lists the id of an item that is not there; iterating over its group panics *)
Theorem C104_insert_left_refuted : exists (E : env item item N) (F : fault) (k : N) (m m' : gmap item item N) (l r : item),
  lawful E /\ fault_ok F /\ lossless F /\ capacity_ok (lo E) /\ calm_ok (lo E) /\ reachable E k m /\ 1 <= k /\ room E 1 m /\
  panic_leaves E F m (InsertLeft l r) m' /\ contains_left E m' l = false /\
  exists i, get_left_iter E m' r = Some i /\ pair_rest E m' i = Panicked.
Proof.
  exists env_room, f_move, 9, fm, (after fm (InsertLeft (it 7) (it 20)) 4), (it 7), (it 20).
  split; [exact env_room_ok|]. split; [exact f_move_ok|]. split; [exact f_move_lossless|]. split; [exact lo_room_ok|].
  split; [exact lo_room_calm|]. split; [exact fm_reachable|]. split; [discriminate|]. split; [exact fm_room|].
  split; [apply after_panic; vm_compute; reflexivity|]. split; [vm_compute; reflexivity|].
  exists [(7, 3); (3, 2)]. run_all.
Qed.
(* the swaps of a right item that is not there are insert_right *)
Theorem C104_swap_refuted : exists (E : env item item N) (F : fault) (k : N) (m m' : gmap item item N) (old new : item),
  lawful E /\ fault_ok F /\ lossless F /\ capacity_ok (lo E) /\ calm_ok (lo E) /\ reachable E k m /\ 1 <= k /\ room E 1 m /\
  calm E m (SwapRight old new) /\ panic_leaves E F m (SwapRight old new) m' /\ has_stray E m' /\
  paired_rest E m' (iter_paired m') = Panicked.
Proof.
  exists env_room, f_move, 9, fm, (after fm (SwapRight (it 50) (it 10)) 8), (it 50), (it 10).
  split; [exact env_room_ok|]. split; [exact f_move_ok|]. split; [exact f_move_lossless|]. split; [exact lo_room_ok|].
  split; [exact lo_room_calm|]. split; [exact fm_reachable|]. split; [discriminate|]. split; [exact fm_room|].
  split; [intros X; vm_compute in X; discriminate|].
  split; [apply after_panic; vm_compute; reflexivity|]. split; [|vm_compute; reflexivity].
  exists (it 1), [it 3; it 1], [it 30; it 20]. split; [vm_compute; reflexivity|]. split; [simpl; auto|]. run_all.
Qed.

(* ---- cases for the partial theorems and for C105: the map is mended by remove_left of the
   stray, or by insert_left once more ---- *)
Definition seen (m : gmap item item N) : outcome (list item) * outcome (list item) * outcome (list (item * item)) :=
  (left_rest (iter_left m), right_rest (iter_right m), paired_rest env_room m (iter_paired m)).
Example C102_case :
  reachable env_room 9 fm /\
  let m1 := after fm (RemoveRight (it 10)) 4 in
  seen m1 = (Done [it 3; it 1], Done [it 30; it 20], Panicked) /\
  snd (step env_room m1 (RemoveLeft (it 1))) = OPanic /\
  let m2 := fst (step env_room m1 (RemoveLeft (it 1))) in
  seen m2 = (Done [it 3], Done [it 30; it 20], Done [(it 3, it 20)]) /\
  snd (run env_room m2 [Insert (it 1) (it 20); RemoveRight (it 20)]) = [OUnit; OGroup (Some ([it 1; it 3], it 20))].
Proof. split; [exact fm_reachable|]. run_all. Qed.
Example C103_case :
  reachable env_room 9 tm /\
  let m1 := after tm (Insert (it 1) (it 70)) 8 in
  seen m1 = (Done [it 3; it 2; it 1], Done [it 30; it 20; it 10], Panicked) /\
  let m2 := fst (step env_room m1 (RemoveLeft (it 1))) in
  snd (step env_room m1 (RemoveLeft (it 1))) = OPanic /\
  seen m2 = (Done [it 3; it 2], Done [it 30; it 20; it 10], Done [(it 3, it 20); (it 2, it 10)]) /\
  snd (run env_room m2 [Insert (it 1) (it 70); ArePaired (it 1) (it 70)]) = [OUnit; OBool true].
Proof. split; [exact tm_reachable|]. run_all. Qed.
Example C104_case :
  reachable env_room 9 fm /\
  let m1 := after fm (InsertLeft (it 7) (it 20)) 4 in
  seen m1 = (Done [it 3; it 2; it 1], Done [it 30; it 20; it 10], Done [(it 3, it 20); (it 2, it 10); (it 1, it 10)]) /\
  snd (step env_room m1 (RemoveRight (it 20))) = OPanic /\
  let m2 := fst (step env_room m1 (InsertLeft (it 7) (it 20))) in
  snd (run env_room m2 [RemoveRight (it 20); IterPairedAll]) =
    [OGroup (Some ([it 7; it 3], it 20)); OPairs [(it 2, it 10); (it 1, it 10)]].
Proof. split; [exact fm_reachable|]. run_all. Qed.
(* in place: a panic in insert loses left items, which are still listed by their right item *)
Definition dmap : gmap item item N := fst (run env_room (with_hasher 0 (hb_new lo_room 3) f_cap) f_hist).
Example C105_damaged_case :
  let m1 := fst (u_step env_room f_in_place dmap (Insert (it 7) (it 70)) (Some 9%nat)) in
  ~ room_for lo_room 1 (left_set dmap) /\ ~ lossless f_in_place /\
  seen m1 = (Done [it 3], Done [it 30; it 20; it 10], Done [(it 3, it 20)]) /\
  snd (step env_room m1 (RemoveRight (it 10))) = OPanic /\
  snd (run env_room m1 [Insert (it 8) (it 20); RemoveRight (it 20); IterPairedAll]) =
    [OUnit; OGroup (Some ([it 8; it 3], it 20)); OPairs []].
Proof.
  cbv zeta. split; [vm_compute; intros H; apply H; reflexivity|].
  split; [|run_all].
  intros H. assert (X := Permutation_length (H N 0 0%nat [1])). discriminate.
Qed.

Print Assumptions C102_remove_right_partial.
Print Assumptions C102_remove_partial.
Print Assumptions C102_insert_right_partial.
Print Assumptions C102_insert_remove_partial.
Print Assumptions C102_remove_right_refuted.
Print Assumptions C102_insert_right_refuted.
Print Assumptions C103_insert_partial.
Print Assumptions C103_extend_partial.
Print Assumptions C103_extend_pairs_partial.
Print Assumptions C103_insert_refuted.
Print Assumptions C103_false_pair_refuted.
Print Assumptions C104_pair_partial.
Print Assumptions C104_insert_left_partial.
Print Assumptions C104_swap_right_partial.
Print Assumptions C104_swap_right_remove_partial.
Print Assumptions C104_pair_refuted.
Print Assumptions C104_insert_left_refuted.
Print Assumptions C104_swap_refuted.
Print Assumptions C105_any_call.
Print Assumptions C105_strays.
Print Assumptions C105_loose_maps.
Print Assumptions C105_undamaged.
