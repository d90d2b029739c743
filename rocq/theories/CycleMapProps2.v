(* CycleMap: properties C13-C23, C25, C26. *)
From Coq Require Import List NArith Lia Bool Permutation PeanoNat.
From Verif Require Import Closures Prelude RawTable Optionals CycleMap ListFacts TableFacts CycleMapSpec
  CycleMapHistory CycleMapProofs CycleMapProofs2 CycleMapProofs3 CycleMapHistoryProofs Concrete
  CycleMapProps.
Import ListNotations.
Open Scope N_scope.

Section Props2.
  Context {L R S : Type}.
  Variable E : env L R S.
  Hypothesis OK : lawful E.
  Implicit Types (m : cmap L R S) (l : L) (r : R) (P : list (L * R)).

  Notation "a =L b" := (eqL E a b = true) (at level 70).
  Notation "a =R b" := (eqR E a b = true) (at level 70).
  Ltac start H :=
    let s := fresh "s" in let c := fresh "c" in let P := fresh "P" in
    apply (reachable_view E OK) in H as (s & c & P & ?V & H & ?B).

  Lemma order_view : forall s c m P, Repr E s c m P -> contents E m P ->
    order_pairs E m (iter m) = P.
  Proof.
    intros s c m P H V. unfold contents in V. rewrite (iter_all_order E OK _ _ _ _ H) in V.
    congruence.
  Qed.

  Lemma slots_len : forall s c m P, Repr E s c m P ->
    length (slots (left_set m)) = length P /\ length (slots (right_set m)) = length P.
  Proof.
    intros s c m P H. split; [apply (len_ok E s c m P H)|apply (len_right_ok E s c m P H)].
  Qed.

  (* ---- C13 ---- [after k]: the iterator after k calls of next. *)
  Theorem C13_iterators : forall room m, reachable E room m ->
    exists P, contents E m P /\ bijective (eqL E) (eqR E) P /\
    (* iter() *)
    (forall n, exists it, 
       nexts (iter_next E m) n (iter m) =
         Done (firstn n (map Some P) ++ repeat None (n - length P), it) /\
       iter_len it = (length P - n)%nat /\
       (* a clone taken here yields what the original has still to yield *)
       forall k, exists it',
         nexts (iter_next E m) k (iter_clone it) =
           Done (firstn k (map Some (skipn n P)) ++ repeat None (k - (length P - n)), it')) /\
    (* iter_left(), iter_right() *)
    (exists ls, Permutation ls (map fst P) /\ forall n, exists it,
       nexts single_next n (iter_left m) =
         Done (firstn n (map Some ls) ++ repeat None (n - length P), it) /\
       single_len it = (length P - n)%nat) /\
    (exists rs, Permutation rs (map snd P) /\ forall n, exists it,
       nexts single_next n (iter_right m) =
         Done (firstn n (map Some rs) ++ repeat None (n - length P), it) /\
       single_len it = (length P - n)%nat).
  Proof.
    intros room m H. start H. exists P. split; [auto|]. split; [eapply repr_bij; eauto|].
    assert (SL := slots_len _ _ _ _ H). destruct SL as [SL SR].
    assert (OV := order_view _ _ _ _ H V).
    split; [|split].
    - intros n. exists (skipn n (iter m)).
      rewrite (iter_nexts_ok E OK _ _ _ _ n (iter m) H (incl_refl _)).
      rewrite OV. unfold iter at 1. rewrite SL. split; auto. split.
      + unfold iter_len. rewrite skipn_length. unfold iter. rewrite SL. auto.
      + intros k. unfold iter_clone. exists (skipn k (skipn n (iter m))).
        assert (SO : order_pairs E m (skipn n (iter m)) = skipn n P).
        { destruct (repr_ordered E OK _ _ _ _ H) as (Y & RY & EY & OY & PY).
          rewrite <- OV, OY. unfold iter. rewrite EY.
          rewrite !skipn_map. clear - OK RY.
          rewrite (order_pairs_slots E OK s c m Y); auto.
          - intros q Hq. rewrite <- (firstn_skipn n Y). apply in_or_app; auto. }
        rewrite (iter_nexts_ok E OK _ _ _ _ k (skipn n (iter m)) H).
        * rewrite SO, skipn_length. unfold iter at 1. rewrite SL. auto.
        * intros q Hq. unfold iter in Hq. rewrite <- (firstn_skipn n (slots (left_set m))).
          apply in_or_app; auto.
    - exists (map (fun x => value (snd x)) (iter_left m)).
      split; [eapply iter_left_ok; eauto|]. intros n. exists (skipn n (iter_left m)).
      rewrite single_nexts_ok. unfold iter_left. rewrite SL, map_map. split; auto.
      unfold single_len. rewrite skipn_length, SL. auto.
    - exists (map (fun x => value (snd x)) (iter_right m)).
      split; [eapply iter_right_ok; eauto|]. intros n. exists (skipn n (iter_right m)).
      rewrite single_nexts_ok. unfold iter_right. rewrite SR, map_map. split; auto.
      unfold single_len. rewrite skipn_length, SR. auto.
  Qed.

  (* m holds the pairs P, and every further history (within the remaining ids) returns what
     the list specification returns *)
  Definition behaves_as (room : N) m P : Prop :=
    (exists P', contents E m P' /\ Permutation P' P) /\
    forall ops, budget ops <= room ->
      exists P', s_run (eqL E) (eqR E) P ops P' (snd (run E m ops)) /\
      exists P'', contents E (fst (run E m ops)) P'' /\ Permutation P'' P'.

  Lemma repr_behaves : forall s c m P room, Repr E s c m P -> c + room < two64 ->
    behaves_as room m P.
  Proof.
    intros s c m P room H B. split; [eapply iter_all_ok; eauto|].
    intros ops HB. destruct (run_ok E OK ops s c m P H) as (P' & c' & HR & H' & _); [lia|].
    exists P'. split; auto. eapply iter_all_ok; eauto.
  Qed.

  (* the general statement behind all the others: whatever happened before, the map acts as
     the finite set of its pairs *)
  Theorem C12_history_refinement : forall room m, reachable E room m ->
    exists P, contents E m P /\ behaves_as room m P.
  Proof.
    intros room m H. start H. exists P. split; auto. eapply repr_behaves; eauto.
  Qed.

  (* ---- C14 ---- *)
  Theorem C14_drain : forall room m n, reachable E room m ->
    exists P d, contents E m P /\
      drain_nexts E n (drain m) = Ret d (firstn n (map Some P) ++ repeat None (n - length P)) /\
      drain_len d = (length P - n)%nat /\
      ((length P <= n)%nat ->
         (* the map is as new: not even ids have been used up *)
         forall big, big < two64 -> behaves_as big (drain_end E m d) []).
  Proof.
    intros room m n H. start H.
    destruct (drain_ok E OK _ _ _ _ n H) as (d & HD & HL & HE).
    rewrite (order_view _ _ _ _ H V) in HD. exists P, d. repeat split; auto.
    - apply (iter_all_ok E OK s 0). auto.
    - intros ops HB. eapply (repr_behaves s 0); eauto.
  Qed.

  (* ---- C15 (false in general, see C15_drain_early_drop_refuted) ----
     What holds whenever the iterator is dropped (or leaked) after n items: the left side is
     empty.  Missing: on the right side the items not yielded stay behind. *)
  Theorem C15_drain_early_drop_partial : forall room m n, reachable E room m ->
    exists P d, contents E m P /\
      drain_nexts E n (drain m) = Ret d (firstn n (map Some P) ++ repeat None (n - length P)) /\
      let m' := drain_end E m d in
      len m' = 0%nat /\ is_empty m' = true /\ contents E m' [] /\
      (forall l, contains_left E m' l = false /\ get_right E m' l = None) /\
      exists rs, collect single_next (single_len (iter_right m')) (iter_right m') = Done rs /\
                 Permutation rs (map snd (skipn n P)).
  Proof.
    intros room m n H. start H.
    destruct (repr_ordered E OK _ _ _ _ H) as (Y & RY & EY & OY & PY).
    rewrite (order_view _ _ _ _ H V) in OY.
    destruct (drain_nexts_ok E OK s n Y (drain m)) as (d & HD & EL & ER).
    - apply (rep_ids _ _ _ _ _ RY).
    - exact EY.
    - apply (rep_r _ _ _ _ _ RY).
    - exists P, d. split; auto. split.
      { rewrite HD, OY, map_length. auto. }
      unfold drain_end, t_clear; simpl. repeat split; auto.
      + unfold contains_left, t_get, t_find; simpl.
        destruct (find _ (hb_probe (lo E) _ _ [])) as [i|] eqn:F; auto.
        apply find_some in F as [_ F]. destruct i; discriminate.
      + unfold get_right, get_right_q, t_get, t_find; simpl.
        destruct (find _ (hb_probe (lo E) _ _ [])) as [i|] eqn:F; auto.
        apply find_some in F as [_ F]. destruct i; discriminate.
      + unfold single_len. rewrite collect_single. eexists. split; eauto.
        unfold iter_right; simpl. rewrite (Permutation_map (fun x => value (snd x)) ER).
        rewrite map_map, OY, skipn_map, map_map. reflexivity.
  Qed.

  (* ---- closures ---- *)
  (* the answers of a stateless closure *)
  Lemma s_filter_pure : forall {X} (f : X -> L -> R -> X * verdict) (p : L -> R -> bool),
    (forall x l r, snd (f x l r) = Some (p l r)) ->
    forall Q x, exists x', s_filter (uncurried f) x Q =
      (x', filter (fun q => p (fst q) (snd q)) Q,
           filter (fun q => negb (p (fst q) (snd q))) Q, false).
  Proof.
    intros X f p Hp. induction Q as [|q Q IH]; simpl; intros x; eauto.
    unfold uncurried at 1. specialize (Hp x (fst q) (snd q)).
    destruct (f x (fst q) (snd q)) as [x1 v]. simpl in Hp. subst v.
    destruct (IH x1) as (x' & ->). exists x'. destruct (p (fst q) (snd q)); auto.
  Qed.
  (* a closure that records its calls *)
  Lemma s_filter_log : forall (g : list (L * R) -> L -> R -> bool) Q log,
    fst (fst (fst (s_filter (uncurried (fun log l r => (log ++ [(l, r)], Some (g log l r)))) log Q)))
    = log ++ Q.
  Proof.
    induction Q as [|[l r] Q IH]; simpl; intros log; [rewrite app_nil_r; auto|].
    specialize (IH (log ++ [(l, r)])).
    destruct (s_filter _ (log ++ [(l, r)]) Q) as [[[x' y] n] pn].
    simpl in IH. rewrite <- app_assoc in IH. destruct (g log l r); auto.
  Qed.

  (* ---- C16 ---- [s_filter f x P] = (final closure state, pairs answered true, pairs
     answered false, false): f called on the pairs of P one after the other. *)
  Theorem C16_drain_filter : forall {X} (f : X -> L -> R -> X * verdict) x room m n,
    reachable E room m ->
    exists P, contents E m P /\
    forall x' taken others, s_filter (uncurried f) x P = (x', taken, others, false) ->
      Permutation P (taken ++ others) /\
      exists d x1 d',
        df_nexts E f n (drain_filter m, x) =
          Ret (d, x1) (firstn n (map Some taken) ++ repeat None (n - length taken)) /\
        df_drop E f (d, x1) = Ret (d', x') tt /\
        behaves_as room (df_end m d') others.
  Proof.
    intros X f x room m n H. start H. exists P. split; auto.
    intros x' taken others F. split; [eapply s_filter_perm; eauto|].
    assert (D := dfa_start E OK s c m P H). rewrite (order_view _ _ _ _ H V) in D.
    assert (W := df_nexts_ok E OK f n s c m _ _ _ x D).
    change (on_pair f) with (uncurried f) in W. rewrite F in W.
    destruct W as (d & x1 & kept' & rest' & D' & W).
    assert (V' := df_drop_ok E OK f s c m d kept' rest' x1 D').
    change (on_pair f) with (uncurried f) in V'.
    destruct (s_filter (uncurried f) x1 rest') as [[[x2 t1] o1] pn1].
    destruct V' as (d' & V' & H'). destruct W as [W _].
    destruct W as [W EQ]; auto. injection EQ as -> -> EK ->.
    exists d, x1, d'. repeat split; auto; rewrite EK in H'; simpl in H'.
    - eapply iter_all_ok; eauto.
    - intros. eapply repr_behaves; eauto.
  Qed.
  (* the closure sees every pair exactly once, in iteration order, whatever it answers and
     however many items are taken explicitly *)
  Theorem C16_visits_once : forall (g : list (L * R) -> L -> R -> bool) room m n,
    reachable E room m ->
    let f := fun log l r => (log ++ [(l, r)], Some (g log l r)) in
    exists P d log is d', contents E m P /\
      df_nexts E f n (drain_filter m, []) = Ret (d, log) is /\
      df_drop E f (d, log) = Ret (d', P) tt.
  Proof.
    intros g room m n H f.
    destruct (C16_drain_filter f [] room m n H) as (P & V & W).
    destruct (s_filter (uncurried f) [] P) as [[[x' t] o] pn] eqn:F.
    assert (pn = false) as ->.
    { destruct pn; auto. assert (Z := s_filter_panics (uncurried f) P []). rewrite F in Z.
      destruct Z as (y & a & Z); auto. discriminate. }
    destruct (W _ _ _ eq_refl) as (_ & d & x1 & d' & N & DD & _).
    assert (Z := s_filter_log g P []). fold f in Z. rewrite F in Z. simpl in Z. subst x'.
    do 5 eexists. split; [exact V|]. split; [exact N|exact DD].
  Qed.
  (* with a plain predicate *)
  Theorem C16_drain_filter_pred : forall (p : L -> R -> bool) room m n, reachable E room m ->
    let f := fun (_ : unit) l r => (tt, Some (p l r)) in
    exists P d d',
      contents E m P /\
      df_nexts E f n (drain_filter m, tt) =
        Ret (d, tt) (firstn n (map Some (filter (fun q => p (fst q) (snd q)) P)) ++
                     repeat None (n - length (filter (fun q => p (fst q) (snd q)) P))) /\
      df_drop E f (d, tt) = Ret (d', tt) tt /\
      behaves_as room (df_end m d') (filter (fun q => negb (p (fst q) (snd q))) P).
  Proof.
    intros p room m n H f. destruct (C16_drain_filter f tt room m n H) as (P & V & W).
    destruct (s_filter_pure f p (fun _ _ _ => eq_refl) P tt) as (x' & F).
    destruct (W _ _ _ F) as (_ & d & [] & d' & A & B & C). destruct x'.
    exists P, d, d'. auto.
  Qed.

  (* ---- C17 ---- *)
  Lemma s_filter_panic_point : forall {T X} (f : X -> T -> X * option bool) Q x x' yes no,
    s_filter f x Q = (x', yes, no, true) ->
    exists a p b y, Q = a ++ p :: b /\ snd (f y p) = None /\ In p no /\ In p (s_unwind f x Q) /\
                    incl b no /\ incl (s_unwind f x Q) no.
  Proof.
    induction Q as [|q Q IH]; simpl; intros x x' yes no F; [discriminate|].
    destruct (f x q) as [x1 [v|]] eqn:FX.
    - destruct (s_filter f x1 Q) as [[[x2 y2] n2] p2] eqn:F2.
      assert (p2 = true) as -> by (destruct v; congruence).
      destruct (IH _ _ _ _ F2) as (a & p & b & y & -> & Y & I1 & I2 & I3 & I4).
      exists (q :: a), p, b, y. destruct v; injection F as <- <- <-; repeat split; auto.
      + right; auto.
      + right; auto.
      + intros z Hz. right; auto.
      + intros z [->|Hz]; [left|right]; auto.
    - injection F as <- <- <-. exists [], q, Q, x. rewrite FX. repeat split; auto.
      + left; auto.
      + destruct (s_filter f x1 Q) as [[[x2 y2] n2] p2]. left; auto.
      + right; auto.
      + destruct (s_filter f x1 Q) as [[[x2 y2] n2] p2] eqn:F2.
        apply s_filter_perm in F2. intros z [->|Hz]; [left; auto|right].
        eapply Permutation_in; [symmetry; exact F2|]. apply in_or_app; auto.
  Qed.

  (* If the closure panics: retain leaves the map as it was.  drain_filter keeps the pair
     being visited; in every case the map afterwards acts as the set of its pairs. *)
  Theorem C17_panic_safety : forall {X} (f : X -> L -> R -> X * verdict) x room m n,
    reachable E room m ->
    exists P, contents E m P /\
    forall x' yes others, s_filter (uncurried f) x P = (x', yes, others, true) ->
      (exists before p after, P = before ++ p :: after /\ (exists y, snd (f y (fst p) (snd p)) = None) /\
         In p others /\ In p (s_unwind (uncurried f) x P)) /\
      (* retain: nothing has been removed *)
      (exists m', retain E f (m, x) = Panic (m', x') /\ behaves_as room m' P) /\
      (* drain_filter, panic in an explicit call of next: unwinding runs the destructor *)
      ((length yes < n)%nat -> exists d x1,
         df_nexts E f n (drain_filter m, x) = Panic (d, x1) /\
         behaves_as room (df_end m (fst (res_state (df_drop E f (d, x1)))))
                    (s_unwind (uncurried f) x P) /\
         incl (s_unwind (uncurried f) x P) others) /\
      (* drain_filter, panic while the iterator is being dropped *)
      ((n <= length yes)%nat -> exists d x1 d',
         df_nexts E f n (drain_filter m, x) = Ret (d, x1) (firstn n (map Some yes)) /\
         df_drop E f (d, x1) = Panic (d', x') /\
         behaves_as room (df_end m d') others).
  Proof.
    intros X f x room m n H. start H. exists P. split; auto.
    intros x' yes others F.
    assert (PP := s_filter_panic_point _ _ _ _ _ _ F).
    destruct PP as (a & p & b & y & EP & Y & I1 & I2 & I3 & I4).
    split; [exists a, p, b; unfold uncurried in Y; eauto|].
    assert (D := dfa_start E OK s c m P H). rewrite (order_view _ _ _ _ H V) in D.
    assert (W := df_nexts_ok E OK f n s c m _ _ _ x D).
    change (on_pair f) with (uncurried f) in W. rewrite F in W.
    destruct W as (d & x1 & kept' & rest' & D' & W).
    assert (V' := df_drop_ok E OK f s c m d kept' rest' x1 D').
    change (on_pair f) with (uncurried f) in V'.
    destruct (s_filter (uncurried f) x1 rest') as [[[x2 t1] o1] pn1].
    destruct V' as (d' & V' & H'). destruct W as [W1 W2].
    split; [|split].
    - assert (W := retain_ok E OK f s c m P x H). rewrite (order_view _ _ _ _ H V) in W.
      change (on_pair f) with (uncurried f) in W. rewrite F in W.
      exists m. split; auto. eapply repr_behaves; eauto.
    - intros LT. destruct W2 as (W2 & -> & EK & EU); auto. exists d, x'. split; auto.
      split; auto. rewrite V'.
      replace (fst (res_state (if pn1 then Panic (d', x2) else Ret (d', x2) tt))) with d'
        by (destruct pn1; auto).
      rewrite EU in H'. eapply repr_behaves; eauto.
    - intros LE. destruct W1 as [W1 EQ]; auto. injection EQ as -> -> EK ->.
      exists d, x1, d'. split.
      { rewrite W1. replace (n - length yes)%nat with 0%nat by lia. simpl. rewrite app_nil_r. auto. }
      split; auto. rewrite EK in H'. eapply repr_behaves; eauto.
  Qed.

  (* ---- C18 ---- *)
  Theorem C18_retain : forall {X} (f : X -> L -> R -> X * verdict) x room m, reachable E room m ->
    exists P, contents E m P /\
    forall x' yes no, s_filter (uncurried f) x P = (x', yes, no, false) ->
      Permutation P (yes ++ no) /\
      exists m', retain E f (m, x) = Ret (m', x') tt /\ behaves_as room m' yes.
  Proof.
    intros X f x room m H. start H. exists P. split; auto. intros x' yes no F.
    split; [eapply s_filter_perm; eauto|].
    assert (W := retain_ok E OK f s c m P x H). rewrite (order_view _ _ _ _ H V) in W.
    change (on_pair f) with (uncurried f) in W. rewrite F in W.
    destruct W as (m' & W & H'). exists m'. split; auto. eapply repr_behaves; eauto.
  Qed.
  Theorem C18_visits_once : forall (g : list (L * R) -> L -> R -> bool) room m,
    reachable E room m ->
    exists P m', contents E m P /\
      retain E (fun log l r => (log ++ [(l, r)], Some (g log l r))) (m, []) = Ret (m', P) tt.
  Proof.
    intros g room m H. set (f := fun log l r => (log ++ [(l, r)], Some (g log l r))).
    destruct (C18_retain f [] room m H) as (P & V & W).
    destruct (s_filter (uncurried f) [] P) as [[[x' t] o] pn] eqn:F.
    assert (pn = false) as ->.
    { destruct pn; auto. assert (Z := s_filter_panics (uncurried f) P []). rewrite F in Z.
      destruct Z as (y & a & Z); auto. discriminate. }
    destruct (W _ _ _ eq_refl) as (_ & m' & RT & _).
    assert (Z := s_filter_log g P []). fold f in Z. rewrite F in Z. simpl in Z. subst x'.
    exists P, m'. auto.
  Qed.
  Theorem C18_retain_pred : forall (p : L -> R -> bool) room m, reachable E room m ->
    exists P m', contents E m P /\
      retain E (fun (_ : unit) l r => (tt, Some (p l r))) (m, tt) = Ret (m', tt) tt /\
      behaves_as room m' (filter (fun q => p (fst q) (snd q)) P).
  Proof.
    intros p room m H. set (f := fun (_ : unit) l r => (tt, Some (p l r))).
    destruct (C18_retain f tt room m H) as (P & V & W).
    destruct (s_filter_pure f p (fun _ _ _ => eq_refl) P tt) as ([] & F).
    destruct (W _ _ _ F) as (_ & m' & A & B). exists P, m'. auto.
  Qed.
End Props2.

(* ---- concrete cases and counterexamples ---- *)
Definition P1 : list (item * item) := [(it 4, it 30); (it 1, it 20); (it 5, it 50)].
Example C13_case : exists i,
  nexts (iter_next env_collide m1) 4 (iter m1) =
    Done ([Some (it 4, it 30); Some (it 1, it 20); Some (it 5, it 50); None], i).
Proof. eexists. vm_compute. reflexivity. Qed.
Example C14_case : exists d,
  drain_nexts env_collide 4 (drain m1) =
    Ret d [Some (it 4, it 30); Some (it 1, it 20); Some (it 5, it 50); None] /\
  contents env_collide (drain_end env_collide m1 d) [].
Proof. eexists. split; vm_compute; reflexivity. Qed.
Example C15_case : exists d,
  drain_nexts env_collide 1 (drain m1) = Ret d [Some (it 4, it 30)] /\
  len (drain_end env_collide m1 d) = 0%nat.
Proof. eexists. split; vm_compute; reflexivity. Qed.

(* C15 as stated is false.  One item of three is taken, then the iterator is dropped.  The
   map says it is empty, yet it still contains right items; removing or re-inserting them
   panics. *)
Theorem C15_drain_early_drop_refuted : exists (E : env item item N) m d m',
  lawful E /\ reachable E 2 m /\ len m = 3%nat /\
  drain_nexts E 1 (drain m) = Ret d [Some (it 4, it 30)] /\ m' = drain_end E m d /\
  is_empty m' = true /\ contains_right E m' (it 20) = true /\
  (exists m'', remove_via_right E (it 20) m' = Panic m'') /\
  (exists m'', insert E (it 7) (it 50) m' = Panic m'').
Proof.
  exists env_collide, m1. eexists. eexists. split; [exact env_collide_ok|].
  split; [exists 7, 0, 0, hist1; split; vm_compute; reflexivity|].
  split; [vm_compute; reflexivity|]. split; [vm_compute; reflexivity|].
  split; [reflexivity|]. split; [vm_compute; reflexivity|]. split; [vm_compute; reflexivity|].
  split; eexists; vm_compute; reflexivity.
Qed.
(* drain() also restarts the ids, so a stale right item can be taken for a partner of a new
   left item: one left item with two partners. *)
Definition m2 : cmap item item N :=
  fst (run env_collide (with_hasher 7 0 0) [Insert (it 1) (it 10)]).
Theorem C15_two_partners_refuted : exists (E : env item item N) m m' m'',
  lawful E /\ reachable E 2 m /\ m' = drain_end E m (drain m) /\ is_empty m' = true /\
  insert E (it 9) (it 90) m' = Ret m'' Neither /\
  are_paired E m'' (it 9) (it 90) = true /\ are_paired E m'' (it 9) (it 10) = true.
Proof.
  exists env_collide, m2. do 2 eexists. split; [exact env_collide_ok|].
  split; [exists 7, 0, 0, [Insert (it 1) (it 10)]; split; vm_compute; reflexivity|].
  split; [reflexivity|]. split; [vm_compute; reflexivity|].
  split; [vm_compute; reflexivity|]. split; vm_compute; reflexivity.
Qed.

(* a closure with state: takes every second pair it is asked about *)
Definition alternate : bool -> item -> item -> bool * verdict := fun b _ _ => (negb b, Some b).
Example C16_case : s_filter (uncurried alternate) true P1 =
    (false, [(it 4, it 30); (it 5, it 50)], [(it 1, it 20)], false) /\
  exists d x d' x', 
    df_nexts env_collide alternate 1 (drain_filter m1, true) = Ret (d, x) [Some (it 4, it 30)] /\
    df_drop env_collide alternate (d, x) = Ret (d', x') tt /\
    contents env_collide (df_end m1 d') [(it 1, it 20)].
Proof.
  split; [vm_compute; reflexivity|]. do 4 eexists. split; [vm_compute; reflexivity|].
  split; vm_compute; reflexivity.
Qed.
(* a closure that panics at its second call *)
Definition second_panics : nat -> item -> item -> nat * verdict :=
  fun n _ _ => (Datatypes.S n, match n with O => Some true | 1%nat => None | _ => Some true end).
Example C17_case : s_filter (uncurried second_panics) 0%nat P1 =
    (2%nat, [(it 4, it 30)], [(it 1, it 20); (it 5, it 50)], true) /\
  s_unwind (uncurried second_panics) 0%nat P1 = [(it 1, it 20)] /\
  (exists d x, df_nexts env_collide second_panics 2 (drain_filter m1, 0%nat) = Panic (d, x) /\
     contents env_collide (df_end m1 (fst (res_state (df_drop env_collide second_panics (d, x)))))
              [(it 1, it 20)]) /\
  retain env_collide second_panics (m1, 0%nat) = Panic (m1, 2%nat).
Proof.
  split; [vm_compute; reflexivity|]. split; [vm_compute; reflexivity|].
  split; [do 2 eexists; split; vm_compute; reflexivity|vm_compute; reflexivity].
Qed.
Example C18_case : exists m', retain env_collide alternate (m1, true) = Ret (m', false) tt /\
  contents env_collide m' [(it 4, it 30); (it 5, it 50)].
Proof. eexists. split; vm_compute; reflexivity. Qed.

Print Assumptions C12_history_refinement.
Print Assumptions C13_iterators.
Print Assumptions C14_drain.
Print Assumptions C15_drain_early_drop_partial.
Print Assumptions C15_drain_early_drop_refuted.
Print Assumptions C15_two_partners_refuted.
Print Assumptions C16_drain_filter.
Print Assumptions C16_visits_once.
Print Assumptions C16_drain_filter_pred.
Print Assumptions C17_panic_safety.
Print Assumptions C18_retain.
Print Assumptions C18_visits_once.
Print Assumptions C18_retain_pred.
