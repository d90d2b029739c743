(* PartialCycleMap: properties C37-C44, C46, and the behaviour along whole histories (C65).
   Vocabulary as in PartialProps.v. *)
From Coq Require Import List NArith Lia Bool Permutation PeanoNat.
From Verif Require Import Closures Prelude RawTable Optionals PartialCycleMap ListFacts TableFacts
  PartialSpec PartialHistory IterFacts PartialProofs PartialProofs2 PartialProofs3 PartialProofs4
  PartialProofs5 PartialProofs6 PartialProofs7 PartialProofs8 PartialHistoryProofs Concrete
  PartialProps.
Import ListNotations.
Open Scope N_scope.

Lemma s_filter_total : forall {T X} (f : X -> T -> X * option bool) (p : T -> bool),
  (forall x t, snd (f x t) = Some (p t)) ->
  forall Q x, exists x', s_filter f x Q = (x', filter p Q, filter (fun t => negb (p t)) Q, false).
Proof.
  intros T X f p Hp. induction Q as [|q Q IH]; simpl; intros x; eauto.
  specialize (Hp x q). destruct (f x q) as [x1 v]. simpl in Hp. subst v.
  destruct (IH x1) as (x' & ->). exists x'. destruct (p q); auto.
Qed.
Lemma s_filter_calls : forall {T} (g : list T -> T -> bool) Q log,
  fst (fst (fst (s_filter (fun log t => (log ++ [t], Some (g log t))) log Q))) = log ++ Q.
Proof.
  induction Q as [|q Q IH]; simpl; intros log; [rewrite app_nil_r; auto|].
  specialize (IH (log ++ [q])).
  destruct (s_filter _ (log ++ [q]) Q) as [[[x' y] n] pn].
  simpl in IH. rewrite <- app_assoc in IH. destruct (g log q); auto.
Qed.

Section Props2.
  Context {L R S : Type}.
  Variable E : env L R S.
  Hypothesis OK : lawful E.
  Notation entry := (optional_pair L R).
  Implicit Types (m : pmap L R S) (l : L) (r : R) (P : list entry).
  Notation both := (fun p : L * R => SomeBoth (fst p) (snd p)).
  Notation no_left := (fun e : entry => negb (has_left_item e)).

  Ltac start H :=
    let s := fresh "s" in let c := fresh "c" in let P := fresh "P" in
    apply (reachable_view E OK) in H as (s & c & P & ?V & H & ?B).

  (* m holds the entries P, and every further guarded history (within the remaining ids)
     returns what the list specification returns *)
  Definition behaves_as (room : N) m P : Prop :=
    (exists P', contents E m P' /\ Permutation P' P) /\
    forall ops, budget ops <= room -> guarded E m ops ->
      exists P', s_run (eqL E) (eqR E) P ops P' (snd (run E m ops)) /\
      exists P'', contents E (fst (run E m ops)) P'' /\ Permutation P'' P'.

  Lemma repr_behaves : forall s c m P room, Repr E s c m P -> c + room < two64 ->
    behaves_as room m P.
  Proof.
    intros s c m P room H B. split; [eapply (view E OK); eauto|].
    intros ops HB G. destruct (run_ok E OK ops s c m P H) as (P' & c' & HR & H' & _); [lia|auto|].
    exists P'. split; auto. eapply (view E OK); eauto.
  Qed.

  (* ---- C65 ---- the general statement behind all the others: whatever guarded history
     happened before, the map acts as the finite set of its entries *)
  Theorem C65_history_refinement : forall room m, reachable E room m ->
    exists P, contents E m P /\ partial_bijection (eqL E) (eqR E) P /\ behaves_as room m P.
  Proof.
    intros room m H. start H. exists P. split; auto.
    split; [eapply repr_bij; eauto|]. eapply repr_behaves; eauto.
  Qed.
  (* from the constructor on *)
  Theorem C65_from_new : forall s ll lr ops, budget ops < two64 ->
    guarded E (with_hasher s ll lr) ops ->
    exists P P', s_run (eqL E) (eqR E) [] ops P (snd (run E (with_hasher s ll lr) ops)) /\
      contents E (fst (run E (with_hasher s ll lr) ops)) P' /\ Permutation P' P.
  Proof.
    intros s ll lr ops B G.
    destruct (repr_behaves s 0 _ [] (budget ops) (new_ok E s ll lr)) as [_ H]; [lia|].
    destruct (H ops) as (P & HR & P' & V & PP); [lia|auto|]. exists P, P'. auto.
  Qed.

  (* ---- C37 (false in general, see C37_iter_refuted) ----
     iter() yields every pair and every unpaired left item once, then None forever; len and
     size_hint are exact.  Missing: it never yields an unpaired right item. *)
  Theorem C37_iter_partial : forall room m, reachable E room m ->
    exists P Q, contents E m P /\ Permutation Q (filter has_left_item P) /\
    forall n, exists it,
      nexts (iter_next E m) n (iter m)
        = Done (firstn n (map Some Q) ++ repeat None (n - length Q), it) /\
      iter_len E m it = Done (length Q - n)%nat.
  Proof.
    intros room m H. start H. destruct H as (Z & H & ->).
    destruct (rep_order_l _ _ _ _ _ H) as (Y & PY & SL).
    exists (map snd Z), (filter has_left_item (map snd Y)). split; auto.
    split; [apply filter_perm, Permutation_map; symmetry; auto|].
    intros n.
    destruct (nexts_as _ _ (iter_steps E OK s c m Z H) n (iter m) (filter has_left_item (map snd Y)))
      as (it & EQ & VI).
    { exists Y. split; [|split; auto]. intros y Hy. eapply Permutation_in; [symmetry; eauto|auto]. }
    exists it. split; auto. unfold iter_len.
    rewrite (collect_as _ _ (iter_steps E OK s c m Z H) _ _ _ VI).
    - cbn [omap]. rewrite skipn_length. auto.
    - destruct VI as (W & _ & -> & ->). rewrite filter_left_length, (lefts_length E s). auto.
  Qed.
  (* no loss if there is no unpaired right item *)
  Theorem C37_iter_all_lefts : forall room m, reachable E room m ->
    exists P Q, contents E m P /\ iter_all E m = Done Q /\
      ((forall r, ~ In (SomeRight r) P) -> Permutation Q P).
  Proof.
    intros room m H. start H. assert (D := repr_bij E _ _ _ _ H).
    destruct (iter_all_ok E OK _ _ _ _ H) as (Q & EQ & PQ). exists P, Q. repeat split; auto.
    intros NR. rewrite PQ. rewrite filter_all_true; auto. intros e He.
    destruct D as (_ & _ & NN). destruct e; try reflexivity; exfalso; [auto|eapply NR; eauto].
  Qed.

  (* ---- C38 ---- *)
  Theorem C38_iterators : forall room m, reachable E room m ->
    exists Q UL UR ls rs, contents E m (map both Q ++ map SomeLeft UL ++ map SomeRight UR) /\
    Permutation ls (map fst Q ++ UL) /\ Permutation rs (map snd Q ++ UR) /\
    (* iter_paired() *)
    (forall n, exists it,
       nexts (paired_next E m) n (iter_paired m)
         = Done (firstn n (map Some Q) ++ repeat None (n - length Q), it) /\
       paired_len E m it = Done (length Q - n)%nat) /\
    (* iter_unpaired(), lefts first *)
    (forall n, let U := map SomeLeft UL ++ map SomeRight UR in exists it,
       nexts unpaired_next n (iter_unpaired m)
         = Done (firstn n (map Some U) ++ repeat None (n - length U), it) /\
       unpaired_len it = Done (length U - n)%nat) /\
    (* iter_left(), iter_right() *)
    (forall n, exists it,
       nexts single_next n (iter_left m)
         = Done (firstn n (map Some ls) ++ repeat None (n - length ls), it) /\
       single_len it = (length ls - n)%nat) /\
    (forall n, exists it,
       nexts single_next n (iter_right m)
         = Done (firstn n (map Some rs) ++ repeat None (n - length rs), it) /\
       single_len it = (length rs - n)%nat).
  Proof.
    intros room m H. apply (reachable_repr E OK) in H as (s & c & P & (Z & H & ->) & B).
    destruct (rep_order_l _ _ _ _ _ H) as (Y & PY & SL).
    destruct (rep_order_r _ _ _ _ _ H) as (Y' & PY' & SR).
    set (sl := fun e : entry => match e with SomeLeft a => [a] | _ => [] end).
    set (sr := fun e : entry => match e with SomeRight a => [a] | _ => [] end).
    assert (FL : forall K : list entry, map SomeLeft (flat_map sl K) = filter is_sl K).
    { induction K as [|e K IH]; auto. destruct e; simpl; auto. f_equal; auto. }
    assert (FR : forall K : list entry, map SomeRight (flat_map sr K) = filter is_sr K).
    { induction K as [|e K IH]; auto. destruct e; simpl; auto. f_equal; auto. }
    assert (LS : forall K : list entry, Permutation (lefts K) (map fst (s_pairs K) ++ flat_map sl K)).
    { induction K as [|e K IH]; auto. unfold lefts, s_pairs in *. destruct e; simpl; auto.
      rewrite <- Permutation_middle. auto. }
    assert (RS : forall K : list entry, Permutation (rights K) (map snd (s_pairs K) ++ flat_map sr K)).
    { induction K as [|e K IH]; auto. unfold rights, s_pairs in *. destruct e; simpl; auto.
      rewrite <- Permutation_middle. auto. }
    set (Q := s_pairs (map snd Y)).
    set (UL := flat_map sl (map snd Y)). set (UR := flat_map sr (map snd Y')).
    assert (I : incl Y Z) by (intros y Hy; eapply Permutation_in; [symmetry; exact PY|auto]).
    assert (VP : view_paired E s Z (iter_paired m) Q) by (exists Y; auto).
    assert (VU : view_unpaired E s (iter_unpaired m) (map SomeLeft UL ++ map SomeRight UR)).
    { exists Y, Y'. unfold iter_unpaired. rewrite SL, SR. split; auto.
      unfold UL, UR. rewrite FL, FR. auto. }
    assert (LP : forall it K, view_paired E s Z it K -> (length K <= length it)%nat).
    { intros it K (W & _ & -> & ->). rewrite (lefts_length E s). apply s_pairs_length. }
    assert (LU : forall it K, view_unpaired E s it K -> (length K <= length (fst it) + length (snd it))%nat).
    { intros it K (W & W' & -> & ->). cbn [fst snd].
      rewrite app_length, (lefts_length E s), (rights_length E s).
      assert (X := is_sl_lefts (map snd W)). assert (X' := is_sr_rights (map snd W')). lia. }
    exists Q, UL, UR, (map (fun x => value (snd x)) (iter_left m)),
      (map (fun x => value (snd x)) (iter_right m)).
    split; [|split; [|split; [|split; [|split; [|split]]]]].
    - exists Q, (map SomeLeft UL ++ map SomeRight UR). split; [|split; auto].
      + eapply collect_as; [apply (paired_steps E OK s c m Z H)|exact VP|apply LP; auto].
      + eapply collect_as; [apply (unpaired_steps E s)|exact VU|apply LU; auto].
    - unfold iter_left. rewrite SL, (slots_lefts E s). apply LS.
    - unfold iter_right. rewrite SR, (slots_rights E s). rewrite RS. unfold Q, UR.
      apply Permutation_app; auto. apply Permutation_map, Permutation_flat_map, Permutation_map.
      rewrite <- PY. symmetry; auto.
    - intros n. destruct (nexts_as _ _ (paired_steps E OK s c m Z H) n _ _ VP) as (it & EQ & VI).
      exists it. split; auto. unfold paired_len, paired_rest.
      rewrite (collect_as _ _ (paired_steps E OK s c m Z H) _ _ _ VI); [|apply LP; auto].
      cbn [omap]. rewrite skipn_length. auto.
    - intros n U. destruct (nexts_as _ _ (unpaired_steps E s) n _ _ VU) as (it & EQ & VI).
      exists it. split; auto. unfold unpaired_len, unpaired_rest.
      rewrite (collect_as _ _ (unpaired_steps E s) _ _ _ VI); [|apply LU; auto].
      cbn [omap]. rewrite skipn_length. auto.
    - intros n. destruct (nexts_as _ _ single_steps n (iter_left m) _ eq_refl) as (it & EQ & VI).
      exists it. split; auto. unfold single_len.
      apply (f_equal (@length _)) in VI. rewrite skipn_length, map_length in VI.
      rewrite map_length in *. lia.
    - intros n. destruct (nexts_as _ _ single_steps n (iter_right m) _ eq_refl) as (it & EQ & VI).
      exists it. split; auto. unfold single_len.
      apply (f_equal (@length _)) in VI. rewrite skipn_length, map_length in VI.
      rewrite map_length in *. lia.
  Qed.

  Lemma rights_no_left : forall P, ~ In Neither P ->
    length (rights (filter no_left P)) = length (filter no_left P).
  Proof.
    unfold rights. induction P as [|e P IH]; intros NN; auto.
    assert (NN' : ~ In Neither P) by (intro; apply NN; right; auto).
    cbn [filter]. destruct e; simpl; auto. exfalso; apply NN; left; auto.
  Qed.

  (* ---- C39 (false in general, see C39_drain_refuted) ----
     drain() yields the pairs and the unpaired lefts and one of the unpaired rights (if any),
     then None forever; dropped at any point n it leaves an empty map.
     Missing: all unpaired right items but one are lost. *)
  Theorem C39_drain_partial : forall room m n, reachable E room m ->
    exists P Q w d d', contents E m P /\
      Permutation Q (filter has_left_item P) /\
      incl w (filter no_left P) /\ length w = Nat.min 1 (length (filter no_left P)) /\
      drain_nexts E n (drain m)
        = Ret d (firstn n (map Some (Q ++ w)) ++ repeat None (n - length (Q ++ w))) /\
      drain_drop E d = Ret d' tt /\
      is_empty (drain_end E m d') = true /\ contents E (drain_end E m d') [] /\
      behaves_as room (drain_end E m d') [] /\
      (* nothing is lost if at most one right item is unpaired *)
      ((length (filter no_left P) <= 1)%nat -> Permutation (Q ++ w) P).
  Proof.
    intros room m n H. start H. destruct (repr_bij E _ _ _ _ H) as (_ & _ & NN).
    destruct (drain_ok E OK s c m P n H) as (Q & w & d & d' & _ & PQ & IW & NW & LW & EN & ED & H').
    rewrite rights_no_left in LW by auto.
    assert (IW' : incl w (filter no_left P)).
    { intros e He. apply filter_In. split; auto. rewrite NW; auto. }
    exists P, Q, w, d, d'. do 6 (split; [auto|]).
    split; [rewrite (is_empty_ok E _ _ _ _ H'); auto|].
    split; [|split; [eapply repr_behaves; eauto|]].
    - destruct (view E OK _ _ _ _ H') as (P' & V' & PP). symmetry in PP.
      apply Permutation_nil in PP as ->. auto.
    - intros LE. rewrite (filter_split_perm has_left_item P). apply Permutation_app; auto.
      destruct (filter no_left P) as [|e [|e' t]]; simpl in *; try lia.
      + destruct w; [auto|discriminate].
      + destruct w as [|x [|y t]]; try discriminate.
        destruct (IW' x (or_introl eq_refl)) as [->|[]]. auto.
  Qed.

  (* ---- C40 (false in general, see C40_drain_filter_refuted) ----
     The scan: f meets the entries with a left item, then every right item not yet taken out,
     as SomeRight.  For closures that never answer true to the SomeRight of a paired right
     item, exactly the entries answered true are removed and yielded, wherever the iterator
     is dropped.  Missing: a paired right item is offered to the closure a second time, alone,
     and an answer true then tears the pair apart. *)
  Definition spares_pairs {X} m (f : X -> entry -> X * verdict) : Prop :=
    forall y l r, get_left E m r = Some l -> snd (f y (SomeRight r)) <> Some true.

  Lemma spares_all : forall {X} (f : X -> entry -> X * verdict) s c m P, Repr E s c m P ->
    spares_pairs m f -> forall e, In e P -> spares f e.
  Proof.
    intros X f s c m P H G e He y r HL HR.
    assert (D := repr_bij E _ _ _ _ H).
    destruct e as [|a|b|a b]; simpl in HL, HR; try discriminate. inversion HR; subst b.
    apply (G y a r). rewrite (get_left_spec E OK _ _ _ _ _ H).
    apply (get_l_iff _ _ (eqL_equiv _ OK) (eqR_equiv _ OK) P); auto.
    exists r. split; auto. apply (equiv_refl _ (eqR_equiv _ OK)).
  Qed.

  Theorem C40_drain_filter_partial : forall {X} (f : X -> entry -> X * verdict) x room m n,
    reachable E room m -> spares_pairs m f ->
    exists P Q W, contents E m P /\ Permutation Q (filter has_left_item P) /\
      Permutation W (filter (fun e => is_some (op_get_right e)) P) /\
    forall x' taken others,
      s_filter (on_visit (eqR E) f) (x, []) (map VE Q ++ map VR W) = (x', taken, others, false) ->
      Permutation P (map shown taken ++ flat_map keep others) /\
      exists d x1 d',
        df_nexts E f n (drain_filter m, x)
          = Ret (d, x1) (firstn n (map Some (map shown taken)) ++ repeat None (n - length taken)) /\
        df_drop E f (d, x1) = Ret (d', fst x') tt /\
        behaves_as room (df_end m d') (flat_map keep others).
  Proof.
    intros X f x room m n H G. start H. destruct (repr_bij E _ _ _ _ H) as (_ & _ & NN).
    assert (SP := spares_all f s c m P H G).
    destruct (dfa_start E OK f s c m P H SP) as (Q & W & _ & PQ & _ & PW & D).
    exists P, Q, W. split; auto. split; auto. split; auto. intros x' taken others F.
    assert (N := df_nexts_ok E OK f n s c m _ _ _ _ x D). rewrite F in N.
    destruct N as (d & x1 & kept' & rest' & D' & N).
    assert (DR := df_drop_ok E OK f s c m d _ kept' rest' (fst x1) D').
    rewrite <- surjective_pairing in DR.
    destruct (s_filter (on_visit (eqR E) f) x1 rest') as [[[x2 t2] o2] pn2].
    destruct DR as (d' & DR & H'). destruct N as [N _]. destruct N as [N EQ]; auto.
    injection EQ as -> -> EK ->. split.
    - assert (TK : flat_map keep taken = map shown taken).
      { eapply (taken_kept E f); [|exact F]. intros e He.
        apply in_app_iff in He as [He|He]; apply in_map_iff in He as (e' & EQ & He); inversion EQ; subst e'.
        assert (I := Permutation_in _ PW He). apply filter_In in I as [I1 I2].
        split; [apply SP; auto|]. destruct (op_get_right e); easy. }
      rewrite <- TK, <- flat_map_app. apply s_filter_perm in F.
      rewrite <- (Permutation_flat_map keep F). symmetry.
      transitivity (flat_map keep (map VE (filter has_left_item P)
            ++ map VR (filter (fun e : entry => is_some (op_get_right e)) P))).
      + apply Permutation_flat_map, Permutation_app; apply Permutation_map; auto.
      + apply keep_visits; auto.
    - exists d, (fst x1), d'. split; auto. split; auto.
      rewrite EK in H'. simpl in H'. eapply repr_behaves; eauto.
  Qed.

  (* with a plain predicate *)
  Lemma visits_pred_r : forall (p : entry -> bool) (W : list entry) tk,
    (forall e, In e W -> is_some (op_get_right e) = true) ->
    (forall e, In e W -> has_left_item e = true -> forall r, op_get_right e = Some r -> p (SomeRight r) = false) ->
    (forall e e', In e W -> In e' tk -> has_left_item e = false ->
        forall r, op_get_right e = Some r -> has_r (eqR E) r e' = false) ->
    exists x', s_filter (on_visit (eqR E) (fun (_ : unit) e => (tt, Some (p e)))) (tt, tk) (map VR W)
      = (x', map VR (filter p (filter no_left W)),
             filter (fun v => match v with VR e => negb (no_left e && p e) | VE _ => true end) (map VR W),
             false).
  Proof.
    intros p. induction W as [|e W IH]; intros tk HR HP HT.
    - exists (tt, tk). reflexivity.
    - destruct (IH tk) as (x' & Q).
      { intros; apply HR; right; auto. } { intros; eapply HP; eauto; right; auto. }
      { intros; eapply HT; eauto; right; auto. }
      exists x'. cbn [map s_filter]. unfold on_visit at 1. cbn [snd fst].
      assert (R1 := HR e (or_introl eq_refl)).
      destruct (op_get_right e) as [r|] eqn:RE; [|discriminate].
      destruct (has_left_item e) eqn:HL.
      + assert (PF := HP e (or_introl eq_refl) HL r RE).
        cbn [filter]. rewrite HL. cbn [negb andb].
        destruct (existsb (has_r (eqR E) r) tk); [|rewrite PF]; rewrite Q; reflexivity.
      + assert (EF : existsb (has_r (eqR E) r) tk = false).
        { apply existsb_false. intros e' He'. eapply HT; eauto. left; auto. }
        rewrite EF.
        assert (EE : e = SomeRight r).
        { unfold has_left_item in HL. destruct e; simpl in *; congruence. }
        rewrite <- EE. cbn [filter]. rewrite HL. cbn [negb andb].
        destruct (p e) eqn:PE; rewrite Q; cbn [filter]; rewrite PE; reflexivity.
  Qed.
  Lemma visits_pred : forall (p : entry -> bool) Q tk V,
    let f := on_visit (eqR E) (fun (_ : unit) e => (tt, Some (p e))) in
    s_filter f (tt, tk) (map VE Q ++ V) =
      let '(x', yes, no, pn) := s_filter f (tt, rev (filter p Q) ++ tk) V in
      (x', map VE (filter p Q) ++ yes, map VE (filter (fun e => negb (p e)) Q) ++ no, pn).
  Proof.
    induction Q as [|e Q IH]; intros tk V f; cbn [map app filter rev].
    - destruct (s_filter f _ V) as [[[x' y] no] pn]; auto.
    - cbn [s_filter]. unfold f at 1, on_visit at 1. cbn [fst snd].
      destruct (p e); cbn [negb]; fold f; rewrite IH; fold f.
      + cbn [rev]. rewrite <- app_assoc. cbn [app].
        destruct (s_filter f _ V) as [[[x' y] no] pn]; auto.
      + destruct (s_filter f _ V) as [[[x' y] no] pn]; auto.
  Qed.

  Theorem C40_drain_filter_pred_partial : forall (p : entry -> bool) room m n, reachable E room m ->
    (forall l r, get_left E m r = Some l -> p (SomeRight r) = false) ->
    let f := fun (_ : unit) e => (tt, Some (p e)) in
    exists P d d',
      (exists P0, contents E m P0 /\ Permutation P P0) /\
      df_nexts E f n (drain_filter m, tt) =
        Ret (d, tt) (firstn n (map Some (filter p P)) ++ repeat None (n - length (filter p P))) /\
      df_drop E f (d, tt) = Ret (d', tt) tt /\
      behaves_as room (df_end m d') (filter (fun e => negb (p e)) P).
  Proof.
    intros p room m n H G f.
    assert (SP : spares_pairs m f).
    { intros y l r HL. simpl. rewrite (G l r HL). discriminate. }
    destruct (C40_drain_filter_partial f tt room m n H SP) as (P & Q & W & V & PQ & PW & K).
    start H. assert (P0 = P).
    { destruct V as (A & B' & V1 & V2 & ->), V0 as (A' & B'' & V1' & V2' & ->). congruence. }
    subst P0. assert (D := repr_bij E _ _ _ _ H). assert (NN : ~ In Neither P) by apply D.
    assert (EL := eqL_equiv _ OK). assert (ER := eqR_equiv _ OK).
    assert (IQ : forall e, In e Q -> In e P /\ has_left_item e = true).
    { intros e He. apply (Permutation_in _ PQ) in He. apply filter_In in He. auto. }
    assert (IW : forall e, In e W -> In e P /\ is_some (op_get_right e) = true).
    { intros e He. apply (Permutation_in _ PW) in He. apply filter_In in He. auto. }
    destruct (visits_pred_r p W (rev (filter p Q))) as (x' & F).
    { intros e He. apply IW; auto. }
    { intros e He HL r HR. destruct (IW e He) as [I1 _].
      destruct e as [|a|b|a b]; simpl in HL, HR; try discriminate. inversion HR; subst b.
      apply (G a r). rewrite (get_left_spec E OK _ _ _ _ _ H).
      apply (get_l_iff _ _ EL ER P); auto. exists r. split; auto. apply (equiv_refl _ ER). }
    { intros e e' He He' HL r HR. apply in_rev in He'. apply filter_In in He' as [He' _].
      destruct (has_r (eqR E) r e') eqn:HH; auto. exfalso.
      assert (e = e').
      { eapply (unique_r _ _ EL ER P r); eauto; [apply IW; auto|apply IQ; auto|].
        unfold has_r. rewrite HR. apply (equiv_refl _ ER). }
      subst e'. destruct (IQ e He'). congruence. }
    set (no := filter (fun v => match v with VR e => negb (no_left e && p e) | VE _ => true end) (map VR W)) in *.
    assert (KN : flat_map keep no = filter (fun e => negb (p e)) (filter no_left W)).
    { unfold no. clear. induction W as [|e W IH]; auto. cbn [map filter].
      destruct (has_left_item e) eqn:HL; cbn [negb andb flat_map keep].
      - rewrite HL. auto.
      - cbn [filter]. destruct (p e); cbn [negb flat_map keep]; auto. rewrite HL. cbn. f_equal. auto. }
    assert (KE : forall K : list entry, flat_map keep (map VE K) = K).
    { intros K0. induction K0; simpl; auto. f_equal; auto. }
    assert (SE : forall K : list entry, map shown (map VE K) = K).
    { intros. rewrite map_map. cbn. apply map_id. }
    assert (SR : forall K : list entry, (forall e, In e K -> has_left_item e = false /\ In e W) ->
               map shown (map VR K) = K).
    { intros K0. induction K0 as [|e K0 IH]; intros HK; auto. cbn [map]. rewrite IH; [|intros; apply HK; right; auto].
      destruct (HK e (or_introl eq_refl)) as [A A']. f_equal. unfold has_left_item in A.
      apply IW in A' as [_ A']. destruct e; simpl in *; congruence. }
    specialize (K x' (map VE (filter p Q) ++ map VR (filter p (filter no_left W)))
                  (map VE (filter (fun e => negb (p e)) Q) ++ no)).
    destruct K as (PP & d & [] & d' & A & B' & C).
    { assert (VP := visits_pred p Q [] (map VR W)). cbv zeta in VP.
      rewrite app_nil_r, F in VP. exact VP. }
    rewrite map_app, SE, SR in A.
    2:{ intros e He. apply filter_In in He as [He _]. apply filter_In in He as [He X].
        split; auto. apply negb_true_iff in X. auto. }
    rewrite flat_map_app, KE, KN in C. rewrite app_length, !map_length in A.
    exists (Q ++ filter no_left W), d, d'.
    rewrite !filter_app, app_length. split; [|split; [exact A|split; [|exact C]]].
    - exists P. split; auto. rewrite (filter_split_perm has_left_item P).
      apply Permutation_app; auto. rewrite (filter_perm _ _ _ PW).
      clear - NN. induction P as [|e P IH]; auto.
      assert (NN' : ~ In Neither P) by (intro; apply NN; right; auto).
      cbn [filter]. destruct e; simpl; auto. exfalso; apply NN; left; auto.
    - destruct (fst x'). exact B'.
  Qed.

  (* the closure panics: whatever entries are left, the map stays consistent, and the entry
     being visited is kept *)
  Theorem C40_panic_safety_partial : forall {X} (f : X -> entry -> X * verdict) x room m n,
    reachable E room m -> spares_pairs m f ->
    exists P Q W, contents E m P /\ Permutation Q (filter has_left_item P) /\
      Permutation W (filter (fun e => is_some (op_get_right e)) P) /\
    forall x' taken others,
      s_filter (on_visit (eqR E) f) (x, []) (map VE Q ++ map VR W) = (x', taken, others, true) ->
      (* in an explicit call of next: unwinding runs the destructor *)
      ((length taken < n)%nat -> exists d x1,
         df_nexts E f n (drain_filter m, x) = Panic (d, x1) /\
         behaves_as room (df_end m (fst (res_state (df_drop E f (d, x1)))))
           (flat_map keep (s_unwind (on_visit (eqR E) f) (x, []) (map VE Q ++ map VR W)))) /\
      (* while the iterator is being dropped *)
      ((n <= length taken)%nat -> exists d x1 d',
         df_nexts E f n (drain_filter m, x) = Ret (d, x1) (firstn n (map Some (map shown taken))) /\
         df_drop E f (d, x1) = Panic (d', fst x') /\
         behaves_as room (df_end m d') (flat_map keep others)).
  Proof.
    intros X f x room m n H G. start H.
    assert (SP := spares_all f s c m P H G).
    destruct (dfa_start E OK f s c m P H SP) as (Q & W & _ & PQ & _ & PW & D).
    exists P, Q, W. split; auto. split; auto. split; auto. intros x' taken others F.
    assert (N := df_nexts_ok E OK f n s c m _ _ _ _ x D). rewrite F in N.
    destruct N as (d & x1 & kept' & rest' & D' & N).
    assert (DR := df_drop_ok E OK f s c m d _ kept' rest' (fst x1) D').
    rewrite <- surjective_pairing in DR.
    destruct (s_filter (on_visit (eqR E) f) x1 rest') as [[[x2 t2] o2] pn2].
    destruct DR as (d' & DR & H'). destruct N as [N1 N2]. split.
    - intros LT. destruct N2 as (N2 & -> & _ & EU); auto. exists d, (fst x'). split; auto.
      rewrite DR.
      replace (fst (res_state (if pn2 then Panic (d', fst x2) else Ret (d', fst x2) tt))) with d'
        by (destruct pn2; auto).
      rewrite EU in H'. eapply repr_behaves; eauto.
    - intros LE. destruct N1 as [N1 EQ]; auto. injection EQ as -> -> EK ->.
      exists d, (fst x1), d'. split.
      { rewrite N1. replace (n - length taken)%nat with 0%nat by lia. simpl. rewrite app_nil_r. auto. }
      split; auto. rewrite EK in H'. eapply repr_behaves; eauto.
  Qed.
End Props2.

(* ---- concrete cases ---- *)
Lemma pm1_pairs : forall r l, get_left env_collide pm1 r = Some l ->
  fst r = 50 \/ fst r = 30 \/ fst r = 20.
Proof.
  intros r l G. destruct (reachable_view env_collide env_collide_ok 1 pm1) as (s & c & P & V & H & _);
    [apply pm1_reachable; reflexivity|].
  assert (P = pm1_entries) as ->.
  { destruct V as (A & B & V1 & V2 & ->), pm1_contents as (A' & B' & W1 & W2 & ->). congruence. }
  rewrite (get_left_spec env_collide env_collide_ok _ _ _ _ _ H) in G.
  apply (get_l_iff _ _ item_eq_equiv item_eq_equiv) in G as (b & I & Q);
    [|exact (repr_bij env_collide _ _ _ _ H)].
  apply item_eq_key in Q. rewrite Q. unfold pm1_entries in I.
  repeat destruct I as [I|I]; inversion I; subst; auto.
Qed.

Example C65_case :
  guarded env_collide pm1 [Unpair (it 3) (it 30); Insert (it 1) (it 30); IterAll; DrainN 2] /\
  snd (run env_collide pm1 [Unpair (it 3) (it 30); Insert (it 1) (it 30); IterAll; DrainN 2])
  = [OBool true; OIns (SomeBoth (it 1) (it 20), SomeRight (it 30));
     OEntries [SomeLeft (it 4); SomeLeft (it 2); SomeLeft (it 3); SomeBoth (it 5) (it 50);
               SomeBoth (it 1) (it 30)];
     OItems [Some (SomeLeft (it 4)); Some (SomeLeft (it 2))] false].
Proof.
  split; [|vm_compute; reflexivity].
  cbn [guarded guard]. split; [intros; vm_compute; reflexivity|auto].
Qed.
Example C37_case : exists i,
  nexts (iter_next env_collide pm1) 6 (iter pm1) =
    Done ([Some (SomeBoth (it 5) (it 50)); Some (SomeBoth (it 3) (it 30)); Some (SomeBoth (it 1) (it 20));
           Some (SomeLeft (it 2)); Some (SomeLeft (it 4)); None], i).
Proof. eexists. vm_compute. reflexivity. Qed.
Example C38_case : exists i j,
  nexts unpaired_next 3 (iter_unpaired pm1) =
    Done ([Some (SomeLeft (it 2)); Some (SomeLeft (it 4)); Some (SomeRight (it 10))], i) /\
  unpaired_len i = Done 2%nat /\
  nexts (paired_next env_collide pm1) 4 (iter_paired pm1) =
    Done ([Some (it 5, it 50); Some (it 3, it 30); Some (it 1, it 20); None], j).
Proof. do 2 eexists. vm_compute. repeat split; reflexivity. Qed.
(* six items yielded out of eight entries *)
Example C39_case : exists d d',
  drain_nexts env_collide 7 (drain pm1) =
    Ret d [Some (SomeBoth (it 5) (it 50)); Some (SomeBoth (it 3) (it 30)); Some (SomeBoth (it 1) (it 20));
           Some (SomeLeft (it 2)); Some (SomeLeft (it 4)); Some (SomeRight (it 10)); None] /\
  drain_drop env_collide d = Ret d' tt /\ is_empty (drain_end env_collide pm1 d') = true.
Proof. do 2 eexists. vm_compute. repeat split; reflexivity. Qed.
Definition p_some (e : optional_pair item item) : bool :=
  match e with
  | SomeBoth l _ => fst l =? 3 | SomeLeft l => fst l =? 2
  | SomeRight r => (fst r =? 10) || (fst r =? 60) | Neither => true
  end.
Example C40_case :
  (forall l r, get_left env_collide pm1 r = Some l -> p_some (SomeRight r) = false) /\
  exists d d',
    df_nexts env_collide (fun (_ : unit) e => (tt, Some (p_some e))) 3 (drain_filter pm1, tt) =
      Ret (d, tt) [Some (SomeBoth (it 3) (it 30)); Some (SomeLeft (it 2)); Some (SomeRight (it 10))] /\
    df_drop env_collide (fun (_ : unit) e => (tt, Some (p_some e))) (d, tt) = Ret (d', tt) tt /\
    contents env_collide (df_end pm1 d')
      [SomeBoth (it 5) (it 50); SomeBoth (it 1) (it 20); SomeLeft (it 4); SomeRight (it 40)].
Proof.
  split.
  - intros l r G. apply pm1_pairs in G. unfold p_some.
    destruct G as [->|[->| ->]]; reflexivity.
  - do 2 eexists. split; [vm_compute; reflexivity|]. split; [vm_compute; reflexivity|].
    exists [(it 5, it 50); (it 1, it 20)], [SomeLeft (it 4); SomeRight (it 40)].
    repeat split; vm_compute; reflexivity.
Qed.
(* a closure that panics at the third entry *)
Definition third_panics (n : nat) (e : optional_pair item item) : nat * verdict :=
  (Datatypes.S n, if Nat.eqb n 2 then None else
     Some (match e with SomeRight _ => false | _ => true end)).
Example C40_panic_case : spares_pairs env_collide pm1 third_panics /\
  exists d, df_nexts env_collide third_panics 4 (drain_filter pm1, 0%nat) = Panic (d, 3%nat).
Proof.
  split.
  - intros y l r _. unfold third_panics. simpl. destruct (Nat.eqb y 2); discriminate.
  - eexists. vm_compute. reflexivity.
Qed.

(* C37 as stated is false: the unpaired right item 10 is in the map and iter() skips it. *)
Theorem C37_iter_refuted : exists (E : env item item N) m P Q,
  lawful E /\ reachable E 1 m /\ contents E m P /\ iter_all E m = Done Q /\
  contains_right E m (it 10) = true /\ In (SomeRight (it 10)) P /\ ~ In (SomeRight (it 10)) Q /\
  ~ Permutation Q P.
Proof.
  exists env_collide, pm1, pm1_entries. eexists. split; [exact env_collide_ok|].
  split; [apply pm1_reachable; reflexivity|]. split; [exact pm1_contents|].
  split; [vm_compute; reflexivity|]. split; [vm_compute; reflexivity|].
  split; [simpl; auto 10|]. split.
  - simpl. intros H. repeat destruct H as [H|H]; try discriminate; auto.
  - intros H. apply Permutation_length in H. discriminate.
Qed.

(* C39 as stated is false: drained to the end, 40 and 60 are neither yielded nor in the map. *)
Theorem C39_drain_refuted : exists (E : env item item N) m d out d',
  lawful E /\ reachable E 1 m /\
  contains_right E m (it 40) = true /\ contains_right E m (it 60) = true /\
  drain_nexts E 8 (drain m) = Ret d (out ++ [None; None]) /\
  ~ In (Some (SomeRight (it 40))) out /\ ~ In (Some (SomeRight (it 60))) out /\
  drain_drop E d = Ret d' tt /\ is_empty (drain_end E m d') = true.
Proof.
  exists env_collide, pm1. eexists.
  exists [Some (SomeBoth (it 5) (it 50)); Some (SomeBoth (it 3) (it 30)); Some (SomeBoth (it 1) (it 20));
          Some (SomeLeft (it 2)); Some (SomeLeft (it 4)); Some (SomeRight (it 10))].
  eexists. split; [exact env_collide_ok|].
  split; [apply pm1_reachable; reflexivity|]. do 2 (split; [vm_compute; reflexivity|]).
  split; [vm_compute; reflexivity|].
  split; [|split].
  - simpl. intros H. repeat destruct H as [H|H]; try discriminate; auto.
  - simpl. intros H. repeat destruct H as [H|H]; try discriminate; auto.
  - split; vm_compute; reflexivity.
Qed.

(* C40 as stated is false: the closure refuses the pair (3,30) and every left item, accepts
   right items on their own; the pair (3,30) is torn apart and the map is broken. *)
Theorem C40_drain_filter_refuted : exists (E : env item item N) m d d',
  let f := fun (_ : unit) (e : optional_pair item item) =>
             (tt, Some (match e with SomeRight _ => true | _ => false end)) in
  lawful E /\ reachable E 1 m /\ are_paired E m (it 3) (it 30) = true /\
  df_nexts E f 0 (drain_filter m, tt) = Ret (d, tt) [] /\
  df_drop E f (d, tt) = Ret (d', tt) tt /\
  let m' := df_end m d' in
  contains_left E m' (it 3) = true /\ contains_right E m' (it 30) = false /\
  is_left_paired E m' (it 3) = true /\ get_right E m' (it 3) = None /\
  paired_rest E m' (iter_paired m') = Panicked /\
  exists m'', remove_via_left E (it 3) m' = Panic m''.
Proof.
  exists env_collide, pm1. do 2 eexists. cbv zeta. split; [exact env_collide_ok|].
  split; [apply pm1_reachable; reflexivity|].
  split; [vm_compute; reflexivity|]. split; [vm_compute; reflexivity|].
  split; [vm_compute; reflexivity|]. repeat (split; [vm_compute; reflexivity|]); try (vm_compute; reflexivity).
  eexists. vm_compute. reflexivity.
Qed.

(* ---- C64 ---- without the guards on histories the pairing is not a partial bijection: after
   unpair with colliding hashes, an item is "paired" without a partner and iteration panics. *)
Definition p_hist2 : list (op item item) :=
  [Insert (it 1) (it 10); Insert (it 2) (it 20); Unpair (it 1) (it 20)].
Theorem C64_any_history_refuted : exists (E : env item item N) ops,
  lawful E /\ budget ops < two64 /\
  let m := fst (run E (with_hasher 7 0 0) ops) in
  is_right_paired E m (it 10) = true /\ get_left E m (it 10) = None /\
  is_left_paired E m (it 2) = true /\ get_right E m (it 2) = None /\
  (forall l, are_paired E m l (it 10) = false) /\
  snd (step E m IterPairedAll) = OPanic /\ snd (step E m (RemoveViaRight (it 10))) = OPanic.
Proof.
  exists env_collide, p_hist2. split; [exact env_collide_ok|]. split; [vm_compute; reflexivity|].
  cbv zeta. do 4 (split; [vm_compute; reflexivity|]). split; [|split; vm_compute; reflexivity].
  intros [[|[[p|p|]|[p|p|]|]] t]; vm_compute; reflexivity.
Qed.

Print Assumptions C65_history_refinement.
Print Assumptions C65_from_new.
Print Assumptions C64_any_history_refuted.
Print Assumptions C37_iter_partial.
Print Assumptions C37_iter_all_lefts.
Print Assumptions C37_iter_refuted.
Print Assumptions C38_iterators.
Print Assumptions C39_drain_partial.
Print Assumptions C39_drain_refuted.
Print Assumptions C40_drain_filter_partial.
Print Assumptions C40_drain_filter_pred_partial.
Print Assumptions C40_panic_safety_partial.
Print Assumptions C40_drain_filter_refuted.
